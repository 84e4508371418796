(** Concrete cases for printing. *)
From Verif Require Import Base Nom NomFacts Ast ParserModel SpecGrammar SpecParse ParseSound ParserLemmas SpecPrint PrintProofs ExamplesParser.
Local Open Scope string_scope.
Local Open Scope list_scope.

Lemma sample_writable : writable sample_ast.
Proof. exact (parsed_writable sample_returns). Qed.
(** a pointer to a type that is called "char" *)
Definition soft_ast : list definition :=
  [DefType (TdStruct "node" [DVariable (TsInt false) "size"; DOption (TsIdent "char") "next"; DOption (TsChar true) "c"])].
Lemma soft_print : print soft_ast = chars " struct node { unsigned int size ; char* next ; char * c ; } ; ".
Proof. reflexivity. Qed.
Lemma soft_writable : writable soft_ast.
Proof.
  split; [|repeat constructor]. repeat constructor; cbn; try easy; intros H; repeat (destruct H as [H|H]; [discriminate H|]); exact H.
Qed.
(** ... but not a variable of such a type *)
Definition char_ast : list definition := [DefType (TdStruct "node" [DVariable (TsIdent "char") "x"])].
Lemma char_good : good_spec char_ast.
Proof.
  repeat constructor; cbn; try easy; intros H; repeat (destruct H as [H|H]; [discriminate H|]); exact H.
Qed.
Lemma char_not : ~ exists t, greturns (fun n => parse n t) (GOk char_ast).
Proof.
  intros H. apply writable_iff in H as [_ H]. apply Forall_inv in H. apply Forall_inv in H. destruct H as [N _]. apply N. now left.
Qed.
