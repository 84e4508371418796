(** Concrete cases and statements for the size of the generated code (C111). *)
From Verif Require Import Base RustTypes Nom Keyword Ast ParserModel SpecGrammar SpecParse CaseModel RustAst GenModel SpecGen
  GenFacts ParseComplete ExamplesGen SpecCodeSize SizeProofs.
Set Implicit Arguments.
Unset Strict Implicit.
Local Open Scope string_scope.
Local Open Scope list_scope.
Local Open Scope Z_scope.

(** ** Statements of PropsSize.v *)
Definition no_flags : flags := Flags false false false false.
Definition wide_text : text := chars "enum e { A = 2147483646 };".
Definition wide : list definition := single (Decimal "2147483646").
Lemma wide_number : good_constant (Decimal "2147483646") /\ stands_for (Decimal "2147483646") 2147483646.
Proof.
  assert (G : good_constant (Decimal "2147483646")).
  { right. exists [], "2"%char, (chars "147483646"). repeat split; auto; [discriminate|repeat constructor]. }
  split; [exact G|]. now apply (@stands_by KI32).
Qed.
Lemma wide_generated : length wide_text = 26%nat /\ parse 26 wide_text = GOk wide /\ defs_size wide = 1 /\
  forall n checks, exists f, gen_code n (main_config no_flags checks) wide = GOk f /\ 2147483647 <= code_size f.
Proof.
  split; [reflexivity|]. split; [vm_compute; reflexivity|]. split; [reflexivity|]. intros n checks.
  destruct wide_number as [G S]. destruct (@single_generated n (main_config no_flags checks) _ _ G S) as [f F]; [lia|].
  exists f. split; [exact F|].
  exact (@gaps_filled n (main_config no_flags checks) wide f "e" _ (Assign "A" (VConst (Decimal "2147483646"))) _ _ eq_refl F
    (or_introl eq_refl) (or_introl eq_refl) eq_refl G S).
Qed.
Lemma size_explodes : exists source ds, length source = 26%nat /\ parse 26 source = GOk ds /\ defs_size ds = 1 /\
  forall n checks, exists f, gen_code n (main_config no_flags checks) ds = GOk f /\ 2147483647 <= code_size f.
Proof. exists wide_text, wide. exact wide_generated. Qed.

Lemma flags_bounded n fl checks ds f : use_std_trait fl || use_indexer fl = true ->
  use_union fl || use_extra_trait fl || use_indexer fl = true ->
  gen_code n (main_config fl checks) ds = GOk f -> code_size f <= defs_size ds.
Proof.
  intros E U H. apply code_bounded in H. revert H. unfold most, growth.
  replace (enum_complement_index _ || union_complement_index _)%bool with false; [lia|].
  destruct fl as [[] [] [] []]; cbn in *; congruence.
Qed.
Lemma range_bounded n cfg ds f : gen_code n cfg ds = GOk f -> code_size f <= 2 ^ 32 * defs_size ds.
Proof.
  intros H. apply code_bounded in H. assert (0 <= defs_size ds).
  { clear. induction ds as [|d ds IH]; [easy|]. cbn [defs_size fold_right]. fold (defs_size ds). enough (0 <= def_size d) by lia.
    destruct d as [t|a| |p]; cbn [def_size]; try lia. destruct t as [d|y l|y l|y [c s d]]; cbn [typedef_size]; try lia; try apply zlen_nonneg.
    pose proof (zlen_nonneg (flat_map (fun s => match s with CaseSpec vs _ => vs end) s)). destruct d; lia. }
  revert H. unfold most, growth. destruct (_ || _)%bool; lia.
Qed.

(** ** Cases *)
Definition gap_text : text := chars
  "const MAX = 16; enum e { ONE = 1, FAR = 500 }; typedef opaque data<MAX>; struct s { data d; e k; };
   union u switch (e k) { case ONE: s x; case FAR: void; default: int y; };".
Definition gap_defs : list definition := match parse 400 gap_text with GOk ds => ds | _ => [] end.
Definition gap_size (fl : flags) : option Z :=
  match gen_code 5 (main_config fl true) gap_defs with GOk f => Some (code_size f) | _ => None end.
Lemma gap_sizes : parse 400 gap_text = GOk gap_defs /\ defs_size gap_defs = 9 /\
  gap_size (Flags false true true false) = Some 8 /\ gap_size no_flags = Some 1006.
Proof. split; [|split; [|split]]; vm_compute; reflexivity. Qed.
