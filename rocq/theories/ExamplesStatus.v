(** Concrete cases for the exit status of rpcgen (C119). *)
From Verif Require Import Base SpecUtf8 Utf8 Utf8Proofs RustTypes Nom Ast ParserModel SpecGrammar SpecParse ParseSound ParserLemmas RustAst GenModel SpecGen GenFacts
  SpecTranslate SpecToolPanic SpecToolError MainModel SpecMain MainProofs SpecStatus ExamplesGen ExamplesTranslate ExamplesToolPanic ExamplesToolError.
Local Open Scope string_scope.
Local Open Scope list_scope.

Lemma as_file t ds : utf8_ok (bytes_of t) = true -> greturns (fun n => parse n t) (GOk ds) -> protocol_file (Some (bytes_of t)) ds.
Proof.
  intros U P. exists (bytes_of t). split; [reflexivity|]. split; [now apply utf8_ok_spec|]. rewrite text_bytes.
  destruct (greturns_run P) as (n & R & _). exact (parse_sound R).
Qed.
Lemma status_cases :
  (protocol_file (Some (bytes_of pets_text)) pets /\ translatable (main_config tool true) pets) /\
  (protocol_file (Some (bytes_of high_text)) high_file /\ fails_with (main_config tool true) high_file GNotSupported) /\
  (protocol_file (Some (bytes_of low_text)) low_file /\ panics_on (main_config tool true) low_file) /\
  (protocol_file (Some (bytes_of loop_text)) loop_defs /\ ~ translatable (main_config tool true) loop_defs /\
   ~ panics_on (main_config tool true) loop_defs /\ forall e, ~ fails_with (main_config tool true) loop_defs e).
Proof.
  split; [|split; [|split]]; (split; [apply as_file; [vm_compute; reflexivity|]|]).
  - exact pets_parses.
  - exact pets_translatable.
  - exact high_parses.
  - exact high_fails.
  - exact low_parses.
  - exact low_panics.
  - exact loop_parses.
  - exact (proj2 endless_case).
Qed.
