(** Property theorems about the interface files for which rpcgen returns an error or never returns (C118). *)
From Verif Require Import Base Nom Keyword Ast ParserModel SpecGrammar SpecParse CaseModel SpecCase RustAst GenModel SpecGen
  SpecTranslate SpecToolPanic SpecToolError ToolErrorProofs ExamplesGen ExamplesTranslate ExamplesToolPanic ExamplesToolError.
Local Open Scope string_scope.
Local Open Scope list_scope.

(** ** C118 the generator returns an error for exactly the files described in SpecToolError, and that error *)
Theorem C118_exact : forall cfg ds e, good_spec ds ->
  greturns (fun n => gen_code n cfg ds) (GErr e) <-> fails_with cfg ds e.
Proof. exact errors_exact. Qed.
Print Assumptions C118_exact.

Theorem C118_tool : forall fl checks t ds e, greturns (fun n => parse n t) (GOk ds) ->
  greturns (fun n => rpcgen n fl checks t) (GErr e) <-> fails_with (main_config fl checks) ds e.
Proof. exact tool_errors_exact. Qed.
Print Assumptions C118_tool.

Example C118_case : greturns (fun n => parse n high_text) (GOk high_file) /\
  fails_with (main_config tool true) high_file GNotSupported.
Proof. exact high_error_case. Qed.
(** a constant too large for an enum is reported as unknown, although it is defined *)
Example C118_case_big : greturns (fun n => parse n big_text) (GOk big_file) /\
  fails_with (main_config tool true) big_file (GNotFoundIdentifier "BIG") /\ In "BIG" (map fst (const_defs big_file)).
Proof. exact big_error_case. Qed.

(** the generator never returns on exactly the files that remain *)
Theorem C118_endless : forall cfg ds, good_spec ds ->
  gdiverges (fun n => gen_code n cfg ds) <->
  ~ translatable cfg ds /\ ~ panics_on cfg ds /\ forall e, ~ fails_with cfg ds e.
Proof. exact endless_exact. Qed.
Print Assumptions C118_endless.
Example C118_case_endless : greturns (fun n => parse n loop_text) (GOk loop_defs) /\
  ~ translatable (main_config tool true) loop_defs /\ ~ panics_on (main_config tool true) loop_defs /\
  forall e, ~ fails_with (main_config tool true) loop_defs e.
Proof. exact endless_case. Qed.
