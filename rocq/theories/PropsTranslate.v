(** Property theorems about which interface files are translated (C115). *)
From Verif Require Import Base Nom Keyword Ast ParserModel SpecGrammar SpecParse CaseModel SpecCase RustAst GenModel SpecGen SpecTranslate TranslateGen TranslateUnion ExamplesTranslate.
Local Open Scope string_scope.
Local Open Scope list_scope.

(** ** C40 exactly what a name or number gives: the liberty that C40_first_constant_refuted
    shows, a member that is taken because the constant gives an error, is the only one *)
Theorem C40_exact_partial : forall cfg ds cs ts k v, setup_context ds = (cs, ts) -> good_spec ds -> good_value v ->
  (forall z, greturns (fun n => resolve_value (Context cfg cs ts) n k v) (GOk z) <-> number_is ds k v z) /\
  (forall e, greturns (fun n => resolve_value (Context cfg cs ts) n k v) (GErr e) <-> number_error ds k v e).
Proof. exact number_exact. Qed.
Print Assumptions C40_exact_partial.
Example C40_exact_case : good_spec twice /\ good_value (VIdent "A") /\ number_is twice KI32 (VIdent "A") 1.
Proof. exact twice_number. Qed.

(** ** C115 exactly the files described in SpecTranslate are translated *)
Theorem C115_exact : forall cfg ds, good_spec ds ->
  (exists f, greturns (fun n => gen_code n cfg ds) (GOk f)) <-> translatable cfg ds.
Proof. exact translated. Qed.
Print Assumptions C115_exact.

Theorem C115_tool : forall fl checks t ds, greturns (fun n => parse n t) (GOk ds) ->
  (exists f, greturns (fun n => rpcgen n fl checks t) (GOk f)) <-> translatable (main_config fl checks) ds.
Proof. exact tool_translated. Qed.
Print Assumptions C115_tool.

Example C115_case : greturns (fun n => parse n pets_text) (GOk pets) /\
  translatable (main_config tool true) pets.
Proof. exact pets_case. Qed.
Example C115_case_not : greturns (fun n => parse n gap_text) (GOk gap_file) /\
  ~ translatable (main_config tool true) gap_file.
Proof. exact gap_case. Qed.
(** a name that is both a constant and an enum member *)
Example C115_case_twice : greturns (fun n => parse n twice_text) (GOk twice) /\ ~ one_scope twice /\
  translatable (main_config tool true) twice /\ number_is twice KI32 (VIdent "A") 1 /\ number_is twice KU32 (VIdent "A") (2 ^ 31).
Proof. exact twice_case. Qed.

(** where there are no such names, the numbers of SpecTranslate are the values of the names (C40) *)
Theorem C115_numbers : forall ds k v z, one_scope ds -> number_is ds k v z <-> value_is ds v z /\ fits k z.
Proof. exact number_scope. Qed.
Print Assumptions C115_numbers.
Example C115_case_numbers : one_scope pets /\ number_is pets KU32 (VIdent "DOG") 2.
Proof. exact pets_numbers. Qed.
