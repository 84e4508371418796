(** Property theorems about printing definition lists (C79, C80). *)
From Verif Require Import Base Nom Ast ParserModel SpecGrammar SpecParse SpecPrint PrintProofs ExamplesParser ExamplesPrint.
Local Open Scope string_scope.
Local Open Scope list_scope.

(** ** C79 parsing undoes printing *)
Theorem C79_print_parse : forall ds, writable ds -> greturns (fun n => parse n (print ds)) (GOk ds).
Proof. exact print_parses. Qed.
Print Assumptions C79_print_parse.
Theorem C79_reprint : forall t ds, greturns (fun n => parse n t) (GOk ds) -> greturns (fun n => parse n (print ds)) (GOk ds).
Proof. exact reprint. Qed.
Print Assumptions C79_reprint.
Theorem C79_print_injective : forall ds ds', writable ds -> writable ds' -> print ds = print ds' -> ds = ds'.
Proof. exact print_inj. Qed.
Print Assumptions C79_print_injective.
Example C79_case : writable sample_ast /\ greturns (fun n => parse n sample_text) (GOk sample_ast).
Proof. exact (conj sample_writable sample_returns). Qed.
Example C79_case_soft : writable soft_ast /\
  print soft_ast = chars " struct node { unsigned int size ; char* next ; char * c ; } ; ".
Proof. exact (conj soft_writable soft_print). Qed.

(** ** C80 which definition lists can be written: every well-formed one: false,
    a type called char cannot be used for a variable *)
Theorem C80_writable_refuted : exists ds, good_spec ds /\ ~ exists t, greturns (fun n => parse n t) (GOk ds).
Proof. exact (ex_intro _ char_ast (conj char_good char_not)). Qed.
Print Assumptions C80_writable_refuted.
(** Missing: variables and arrays of a type called char or short; this is exact. *)
Theorem C80_writable_partial : forall ds, writable ds <-> exists t, greturns (fun n => parse n t) (GOk ds).
Proof. exact writable_iff. Qed.
Print Assumptions C80_writable_partial.
Example C80_case : writable soft_ast /\ ~ writable char_ast.
Proof. exact (conj soft_writable (fun W => char_not (proj1 (writable_iff char_ast) W))). Qed.
