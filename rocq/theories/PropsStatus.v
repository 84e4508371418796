(** Property theorems about the exit status of rpcgen (C119). *)
From Verif Require Import Base SpecUtf8 Nom Ast ParserModel SpecGrammar SpecParse RustAst GenModel SpecGen
  SpecTranslate SpecToolPanic SpecToolError MainModel SpecMain SpecStatus StatusProofs ExamplesGen ExamplesTranslate ExamplesToolPanic ExamplesStatus.
Local Open Scope string_scope.
Local Open Scope list_scope.

(** ** C119 the exit status of rpcgen, from the contents of the file alone *)
Theorem C119_status_0 : forall fl checks contents, (exists out, exits fl checks contents out 0) <->
  exists ds, protocol_file contents ds /\ translatable (main_config fl checks) ds.
Proof. exact status_0. Qed.
Print Assumptions C119_status_0.
Theorem C119_status_1 : forall fl checks contents, exits fl checks contents [] 1 <->
  (forall ds, ~ protocol_file contents ds) \/
  exists ds e, protocol_file contents ds /\ fails_with (main_config fl checks) ds e.
Proof. exact status_1. Qed.
Print Assumptions C119_status_1.
Theorem C119_status_101 : forall fl checks contents, exits fl checks contents [] 101 <->
  exists ds, protocol_file contents ds /\ panics_on (main_config fl checks) ds.
Proof. exact status_101. Qed.
Print Assumptions C119_status_101.
Theorem C119_no_status : forall fl checks contents, (forall out st, ~ exits fl checks contents out st) <->
  exists ds, protocol_file contents ds /\ ~ translatable (main_config fl checks) ds /\ ~ panics_on (main_config fl checks) ds /\
    forall e, ~ fails_with (main_config fl checks) ds e.
Proof. exact status_none. Qed.
Print Assumptions C119_no_status.
Example C119_cases :
  (protocol_file (Some (bytes_of pets_text)) pets /\ translatable (main_config tool true) pets) /\
  (protocol_file (Some (bytes_of high_text)) high_file /\ fails_with (main_config tool true) high_file GNotSupported) /\
  (protocol_file (Some (bytes_of low_text)) low_file /\ panics_on (main_config tool true) low_file) /\
  (protocol_file (Some (bytes_of loop_text)) loop_defs /\ ~ translatable (main_config tool true) loop_defs /\
   ~ panics_on (main_config tool true) loop_defs /\ forall e, ~ fails_with (main_config tool true) loop_defs e).
Proof. exact status_cases. Qed.
