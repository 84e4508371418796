(** Property theorem about the names of fields (C58). *)
From Verif Require Import Base Nom Keyword Ast ParserModel SpecGrammar SpecParse CaseModel SpecCase RustAst GenModel SpecGen SpecItems FieldNames ExamplesGen ExamplesNames.
Local Open Scope string_scope.
Local Open Scope list_scope.

(** ** C58 exactly the fields with a capital that become a word of Rust are unusable *)
Theorem C58_field_names_exact : forall cfg ds f y, good_spec ds -> greturns (fun n => gen_code n cfg ds) (GOk f) -> In y rust_words ->
  emitted_field f (Id y) <-> exists x, field_of ds x /\ has_capital x /\ snaked (chars x) (chars y).
Proof. exact field_words. Qed.
Print Assumptions C58_field_names_exact.
Example C58_case_exact : good_spec bare /\ greturns (fun n => gen_code n plain_config bare) (GOk (file_of plain_config bare)) /\
  In "type" rust_words /\ field_of bare "Type" /\ has_capital "Type" /\ snaked (chars "Type") (chars "type").
Proof. exact type_field. Qed.
