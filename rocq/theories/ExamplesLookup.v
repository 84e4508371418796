(** Concrete cases and statements for the work of the generator (C110). *)
From Verif Require Import Base RustTypes Nom Keyword Ast ParserModel CaseModel RustAst GenModel SpecGen GenFacts
  CostLower LookupModel SpecLookup LookupProofs.
Set Implicit Arguments.
Unset Strict Implicit.
Local Open Scope string_scope.
Local Open Scope list_scope.
Local Open Scope Z_scope.

(** ** Statements of PropsLookup.v *)
Lemma generating_explodes a k : 0 <= a -> 0 <= k -> exists ds r, forall n cfg, (value_count ds <= n)%nat ->
  gen_code n cfg ds = GErr r /\ a * Z.of_nat (value_count ds) ^ k < lookups n cfg ds.
Proof.
  intros A K. destruct (outgrow A K) as (d & H). exists (ladder (2 * d + 1)), (GNotFoundIdentifier (long_name (2 * d + 1))).
  intros n cfg L. rewrite ladder_size in *. destruct (@ladder_lookups n cfg (2 * d + 1)%nat ltac:(lia) ltac:(lia)) as [G C].
  split; [exact G|]. rewrite C.
  assert (P : a * Z.of_nat (2 * (2 * d + 1)) ^ k <= a * Z.of_nat (12 * d + 18) ^ k).
  { apply Z.mul_le_mono_nonneg_l; [exact A|]. apply Z.pow_le_mono_l. lia. }
  replace (Z.of_nat (2 * d + 1)) with (2 * Z.of_nat d + 1) by lia. rewrite Z.pow_add_r, Z.pow_mul_r by lia.
  change (2 ^ 2) with 4. change (2 ^ 1) with 2.
  assert (1 <= 4 ^ Z.of_nat d) by (apply (Z.pow_le_mono_r 4 0); lia). lia.
Qed.
Lemma doubles_bounded n cfg ds : gen_code n cfg ds <> GFuel ->
  lookups n cfg ds <= Z.of_nat (value_uses ds) *
    (2 ^ Z.of_nat (length (double_names ds)) * (Z.of_nat (length (value_names ds)) + 1)).
Proof. apply lookups_bounded. Qed.
Lemma no_doubles ds : one_scope ds -> double_names ds = [].
Proof.
  intros S. unfold double_names. induction (value_names ds) as [|x l IH]; [easy|]. cbn [filter].
  destruct (existsb (String.eqb x) (map fst (const_defs ds))) eqn:C; [|exact IH].
  destruct (existsb (String.eqb x) (map fst (member_defs ds))) eqn:M; [|exact IH].
  apply existsb_exists in C as (y & C & e). apply String.eqb_eq in e as <-.
  apply existsb_exists in M as (y & M & e). apply String.eqb_eq in e as <-. destruct (S x C M).
Qed.
Lemma members_used ds : (length (member_defs ds) <= value_uses ds)%nat.
Proof.
  unfold member_defs, value_uses. induction (type_defs ds) as [|[x t] l IH]; [easy|].
  cbn [flat_map map snd]. rewrite app_length. cbn [list_sum fold_right]. fold list_sum.
  assert ((length (members t) <= uses t)%nat) by (destruct t; cbn [members uses length]; rewrite ?map_length; lia).
  change (fold_right Init.Nat.add 0%nat (map (fun p => uses (snd p)) l)) with (list_sum (map (fun p : string * typedef => uses (snd p)) l)). lia.
Qed.
Lemma nodup_le l : (length (nodup string_dec l) <= length l)%nat.
Proof. apply NoDup_incl_length; [apply NoDup_nodup|]. intros x H. now apply nodup_In in H. Qed.
Lemma one_scope_bounded n cfg ds : one_scope ds -> gen_code n cfg ds <> GFuel ->
  lookups n cfg ds <= (Z.of_nat (value_count ds) + 1) ^ 2.
Proof.
  intros S H. pose proof (doubles_bounded H) as B. rewrite (no_doubles S) in B. cbn [length] in B. change (2 ^ Z.of_nat 0) with 1 in B.
  assert (N : (length (value_names ds) <= value_count ds)%nat).
  { unfold value_names. etransitivity; [apply nodup_le|]. rewrite app_length, !map_length. pose proof (members_used ds). unfold value_count. lia. }
  assert (U : (value_uses ds <= value_count ds)%nat) by (unfold value_count; lia).
  etransitivity; [exact B|]. rewrite Z.pow_2_r. nia.
Qed.

(** ** Cases *)
Definition plain : config := main_config (Flags false false false false) true.

(** as a text, with three names; generating the code for twelve takes 4095 lookups *)
Lemma ladder_read :
  parse 400 (chars "const a = aa; const aa = aaa; const aaa = aaaa; enum e { a = aa, aa = aaa, aaa = aaaa };") = GOk (ladder 3) /\
  lookups 3 plain (ladder 3) = 7 /\ lookups 12 plain (ladder 12) = 4095.
Proof. split; [|split]; vm_compute; reflexivity. Qed.

(** a chain of names of which no one is both a constant and a member of an enum *)
Definition chain_text : text := chars
  "const FIRST = 1; const START = FIRST; enum e { ONE = START, TWO = 2 }; union u switch (e k) { case ONE: int x; case TWO: void; };".
Definition chain_defs : list definition := match parse 400 chain_text with GOk ds => ds | _ => [] end.
Lemma chain_counted : parse 400 chain_text = GOk chain_defs /\ one_scope chain_defs /\
  (exists f, gen_code 5 plain chain_defs = GOk f) /\ lookups 5 plain chain_defs = 6 /\ value_count chain_defs = 6%nat.
Proof.
  split; [|split; [|split; [|split]]]; try (vm_compute; reflexivity).
  - intros x H K. assert (C : existsb (fun y => existsb (String.eqb y) (map fst (member_defs chain_defs))) (map fst (const_defs chain_defs)) = false) by (vm_compute; reflexivity).
    assert (T : existsb (fun y => existsb (String.eqb y) (map fst (member_defs chain_defs))) (map fst (const_defs chain_defs)) = true).
    { apply existsb_exists. exists x. split; [exact H|]. apply existsb_exists. exists x. split; [exact K|]. apply String.eqb_refl. }
    congruence.
  - eexists. vm_compute. reflexivity.
Qed.

(** the same happens when the generation succeeds: the number is needed as an unsigned one
    for the case, which fails for each of the constants, until [LAST] is found as a member *)
Definition costly_text : text := chars
  "const a = aa; const aa = aaa; const aaa = aaaa; const LAST = a; enum f { LAST = 5 };
   enum e { a = aa, aa = aaa, aaa = aaaa, aaaa = -1 }; union u switch (int k) { case LAST: int x; };".
Definition costly_defs : list definition := match parse 400 costly_text with GOk ds => ds | _ => [] end.
Lemma costly_counted : parse 400 costly_text = GOk costly_defs /\ (exists f, gen_code 6 plain costly_defs = GOk f) /\
  length (double_names costly_defs) = 4%nat /\ lookups 6 plain costly_defs = 22.
Proof. split; [|split; [eexists|split]]; vm_compute; reflexivity. Qed.
