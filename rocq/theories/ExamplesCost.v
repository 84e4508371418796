(** Concrete cases for the work of the parser (C109). *)
From Verif Require Import Base Nom Keyword Ast ParserModel CostModel SpecGrammar SpecCost NomFacts ParseSound ParseTotal
  ParseComplete CostProofs CostLower CostUpper.
Set Implicit Arguments.
Unset Strict Implicit.
Local Open Scope string_scope.
Local Open Scope list_scope.
Local Open Scope Z_scope.

(** [s], white space, [u] at the start of the text *)
Definition heads (s u : string) (i : text) : bool :=
  match strip (chars s) i with
  | Some r => match strip (chars u) (snd (span is_space r)) with Some _ => true | None => false end
  | None => false
  end.
Fixpoint nowhere (s u : string) (i : text) : bool :=
  negb (heads s u i) && match i with [] => true | _ :: t => nowhere s u t end.
Lemma nowhere_ok s u i : (forall b, ~ starts is_space (chars u ++ b)) -> nowhere s u i = true ->
  forall a w b, spaces w -> i <> a ++ chars s ++ w ++ chars u ++ b.
Proof.
  intros U N a w b W ->. induction a as [|c a IH].
  - assert (H : heads s u (chars s ++ w ++ chars u ++ b) = true).
    { unfold heads. rewrite strip_app, span_app by auto. cbn [snd]. now rewrite strip_app. }
    cbn [app] in N. destruct (chars s ++ w ++ chars u ++ b); cbn [nowhere] in N; rewrite H in N; discriminate.
  - cbn [app nowhere] in N. apply andb_prop in N as [_ N]. exact (IH N).
Qed.
Lemma apart_check i : nowhere "struct" "{" i = true -> nowhere "union" "switch" i = true -> apart i.
Proof.
  intros S U. split; [apply (nowhere_ok (s := "struct") (u := "{"))|apply (nowhere_ok (s := "union") (u := "switch"))];
    try assumption; intros b; cbn; discriminate.
Qed.

Definition flat_text : text := chars
  "const MAX = 16; enum color { RED = 1, BLUE = 2 }; struct node { opaque id[MAX]; color hue; node *next; };
   union u switch (bool ok) { case TRUE: node n; case FALSE: void; };".
Lemma flat_counted : apart flat_text /\ parse 1 flat_text = parse 400 flat_text /\ steps 400 flat_text = 647.
Proof. split; [apply apart_check; reflexivity|split; vm_compute; reflexivity]. Qed.

(** three structures written inside one another need the bound 4, and no less *)
Lemma deep_counted : parse 3 (nested_file 3) = GFuel /\ parse 4 (nested_file 3) = GOk (nested_defs 3) /\
  steps 4 (nested_file 3) = 11233.
Proof. split; [|split]; vm_compute; reflexivity. Qed.

(** ** Statements of PropsCost.v *)
Lemma counted_settled n m i : (length i < n)%nat -> (length i < m)%nat -> steps n i = steps m i.
Proof.
  intros L K. assert (F : forall k, (length i < k)%nat -> parse k i <> GFuel).
  { intros k H. destruct (parse_total H) as [-> | (ds & ->)]; discriminate. }
  destruct (Nat.le_ge_cases n m) as [G|G]; [symmetry|]; apply steps_stable; auto.
Qed.
Lemma nested_counted d n : (length (nested_file d) < n)%nat ->
  parse n (nested_file d) = GOk (nested_defs d) /\ length (nested_file d) = (12 * d + 18)%nat /\
  4 ^ Z.of_nat (S d) <= steps n (nested_file d).
Proof. intros L. split; [exact (parse_complete (@nested_denotes d) L)|]. split; [apply file_length|exact (file_steps L)]. Qed.
Lemma counting_faithful n i : fst (c_specification n i) = specification n i.
Proof. apply er_specification. Qed.
Lemma flat_settled : (length flat_text < 400)%nat /\ steps 400 flat_text = 647.
Proof. split; [apply Nat.ltb_lt; reflexivity|]. vm_compute. reflexivity. Qed.
