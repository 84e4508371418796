(** C114 for generated types. *)
From Verif Require Import Base RustTypes SpecTypes SpecDecode DeModel DecProofs CodecProofs SpecPanic PanicProofs SpecError ErrorProofs
  Nom Ast ParserModel SpecParse RustAst GenModel SpecGen SpecItems GenSem SpecEmit EmitStop StuckProofs.
Set Implicit Arguments.
Unset Strict Implicit.
Local Open Scope list_scope.

Lemma error_unique E t i e e' : reports E t i e -> reports E t i e' -> e = e'.
Proof.
  intros H H'. apply error_exact in H as [_ [N H]]. apply error_exact in H' as [_ [M H']].
  specialize (H (N + M)%nat ltac:(lia)). specialize (H' (N + M)%nat ltac:(lia)). congruence.
Qed.
Lemma error_alone E t i e : reports E t i e -> ~ panics E t i /\ forall v, ~ accepts E t v i.
Proof.
  intros H. apply error_exact in H as [_ [N H]]. split.
  - intros P. apply panic_exact in P as [_ [M P]]. specialize (H (N + M)%nat ltac:(lia)). specialize (P (N + M)%nat ltac:(lia)). congruence.
  - intros v A. apply from_bytes_accepted in A as [_ [M A]]. specialize (H (N + M)%nat ltac:(lia)). specialize (A (N + M)%nat ltac:(lia)). congruence.
Qed.
Lemma generated_cases cfg ds f E x T i : greturns (fun n => gen_code n cfg ds) (GOk f) -> file_env f = Some E ->
  compiles f -> self_free ds -> lookup E x = Some T ->
  (exists v, accepts E (TRef x) v i) \/ (exists e, reports E (TRef x) i e) \/ panics E (TRef x) i.
Proof.
  intros G HE C SF L. destruct (generated_terminates i G HE C SF L) as (r & NF & k & H).
  pose proof (H k (Nat.le_refl k)) as Hk.
  assert (NS : from_bytes k E (TRef x) i <> Stuck) by (apply from_bytes_nostuck; [now apply env_closed with f|cbn; congruence]).
  destruct r as [v|e| | |]; try congruence.
  - left. exists v. now apply from_bytes_inv in Hk.
  - right; left. exists e. now apply error_bounded in Hk.
  - right; right. now apply panic_bounded in Hk.
Qed.
