(** Property theorems about the interface files on which rpcgen panics (C117). *)
From Verif Require Import Base Nom Keyword Ast ParserModel SpecGrammar SpecParse CaseModel SpecCase RustAst GenModel SpecGen
  SpecTranslate SpecToolPanic ToolPanicUnion ExamplesTranslate ExamplesToolPanic.
Local Open Scope string_scope.
Local Open Scope list_scope.

(** ** C117 the generator panics on exactly the files described in SpecToolPanic *)
Theorem C117_exact : forall cfg ds, good_spec ds ->
  greturns (fun n => gen_code n cfg ds) GPanic <-> panics_on cfg ds.
Proof. exact panics_exact. Qed.
Print Assumptions C117_exact.

Theorem C117_tool : forall fl checks t ds, greturns (fun n => parse n t) (GOk ds) ->
  greturns (fun n => rpcgen n fl checks t) GPanic <-> panics_on (main_config fl checks) ds.
Proof. exact tool_panics_exact. Qed.
Print Assumptions C117_tool.

Example C117_case : greturns (fun n => parse n low_text) (GOk low_file) /\
  panics_on (main_config tool true) low_file.
Proof. exact low_case. Qed.
Example C117_case_gap : panics_on (main_config tool true) gap_file.
Proof. exact gap_panics. Qed.

(** no such file is translated, and the files that remain give an error *)
Theorem C117_apart : forall cfg ds, good_spec ds -> translatable cfg ds -> ~ panics_on cfg ds.
Proof. exact panics_apart. Qed.
Print Assumptions C117_apart.
Theorem C117_error : forall cfg ds, good_spec ds -> well_founded_names ds ->
  (exists e, greturns (fun n => gen_code n cfg ds) (GErr e)) <-> ~ translatable cfg ds /\ ~ panics_on cfg ds.
Proof. exact error_rest. Qed.
Print Assumptions C117_error.
Example C117_case_error : greturns (fun n => parse n high_text) (GOk high_file) /\ well_founded_names high_file /\
  ~ translatable (main_config tool true) high_file /\ ~ panics_on (main_config tool true) high_file.
Proof. exact high_case. Qed.
