(** Property theorems about the errors of the decoder (C114). *)
From Verif Require Import Base RustTypes SpecTypes SpecDecode DeModel Nom Ast ParserModel SpecParse RustAst GenModel SpecGen SpecItems GenSem SpecWire SpecEmit SpecPanic
  SpecError ErrorProofs ErrorGen ExamplesError ExamplesWire ExamplesEmit.
Local Open Scope list_scope.

(** ** C114 the decoder gives exactly these errors, for every type *)
Theorem C114_error_exact : forall E t i e, returns (fun n => from_bytes n E t i) (Err e) <-> reports E t i e.
Proof. exact error_exact. Qed.
Print Assumptions C114_error_exact.
Theorem C114_one_error : forall E t i e e', reports E t i e -> reports E t i e' -> e = e'.
Proof. exact error_unique. Qed.
Print Assumptions C114_one_error.
Theorem C114_alone : forall E t i e, reports E t i e -> ~ panics E t i /\ forall v, ~ accepts E t v i.
Proof. exact error_alone. Qed.
Print Assumptions C114_alone.
Example C114_case : reports [] bad_text bad_text_input EEncoding /\ reports [] choices choices_input (ECustom (MInvalidVariant 7)) /\
  reports [] nine nine_input (ENotEnoughData 3) /\ reports [] TBool [x00; x00; x00; x01; x00; x00] (ETrailingData 2) /\
  forall e, ~ reports [] nine (nine_input ++ repeat x00 7) e.
Proof. exact error_cases. Qed.
(** nothing else happens to generated types *)
Theorem C114_generated : forall cfg ds f E x T i, greturns (fun n => gen_code n cfg ds) (GOk f) -> file_env f = Some E ->
  compiles f -> self_free ds -> lookup E x = Some T ->
  (exists v, accepts E (TRef x) v i) \/ (exists e, reports E (TRef x) i e) \/ panics E (TRef x) i.
Proof. exact generated_cases. Qed.
Print Assumptions C114_generated.
Example C114_case_generated : forall fl checks, exists f E, generated (main_config fl checks) shapes f E /\ compiles f /\ self_free shapes.
Proof. exact shapes_whole. Qed.
