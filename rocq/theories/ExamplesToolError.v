(** Concrete cases for the files for which the generator returns an error or never returns (C118). *)
From Verif Require Import Base RustTypes Nom Keyword Ast ParserModel SpecGrammar SpecParse ParserLemmas ConstProofs CaseModel SpecCase RustAst GenModel SpecGen SpecItems GenFacts GenPanic GenLemmas
  SpecTranslate SpecToolPanic ToolPanicUnion SpecToolError ToolErrorProofs ExamplesGen ExamplesTranslate ExamplesToolPanic.
Local Open Scope string_scope.
Local Open Scope list_scope.

(** the arm with the smaller number is the one that is reported *)
Lemma high_fails : fails_with (main_config tool true) high_file GNotSupported.
Proof.
  right. split; [constructor|].
  exists [], ("u", TdUnion "u" (UBody (DVariable (TsInt true) "d") [CaseSpec [VConst (Decimal "1")] (DVariable TsQuadruple "q");
    CaseSpec [VConst (Decimal "2")] (DVariable (TsIdent "_9") "x")] None)), [].
  split; [reflexivity|]. split; [constructor|]. split; [reflexivity|]. left. exists (TsInt true), "d". split; [reflexivity|].
  right. exists [(1, DVariable TsQuadruple "q", VConst (Decimal "1")); (2, DVariable (TsIdent "_9") "x", VConst (Decimal "2"))]. split.
  - constructor; [|constructor; [|constructor]]; cbn [fst snd]; (split; [reflexivity|]); (split; [reflexivity|]); (split; [constructor; [|cbn; lia]|lia]).
    + exact stands_1.
    + exact stands_2.
  - left. exists (1, DVariable TsQuadruple "q", VConst (Decimal "1")). split.
    + exists [], [(2, DVariable (TsIdent "_9") "x", VConst (Decimal "2"))]. split; [reflexivity|]. cbn [In]. split; [easy|].
      intros r [<-|[]]. cbn [fst]. lia.
    + split; [exact I|]. split; [left; do 2 constructor|]. left. exists TsQuadruple. split; [reflexivity|]. do 2 constructor.
Qed.
Lemma high_error_case : greturns (fun n => parse n high_text) (GOk high_file) /\
  fails_with (main_config tool true) high_file GNotSupported.
Proof. split; [exact high_parses|exact high_fails]. Qed.

(** a constant that is too large for an enum is reported as unknown, although it is defined *)
Definition big_text : text := chars "const BIG = 0x80000000; enum e { A = BIG };".
Definition big_file : list definition :=
  Eval vm_compute in match parse 900 big_text with GOk ds => ds | _ => [] end.
Lemma big_parses : greturns (fun n => parse n big_text) (GOk big_file).
Proof. apply (@by_parse 900). vm_compute. reflexivity. Qed.
Lemma big_error_case : greturns (fun n => parse n big_text) (GOk big_file) /\
  fails_with (main_config tool true) big_file (GNotFoundIdentifier "BIG") /\ In "BIG" (map fst (const_defs big_file)).
Proof.
  split; [exact big_parses|].  split; [|now left].
  apply (errors_exact (main_config tool true) _ (c34 big_parses)).
  apply (@by_gen 900); [vm_compute; reflexivity|discriminate].
Qed.

(** two constants given in terms of each other *)
Lemma endless_case : greturns (fun n => parse n loop_text) (GOk loop_defs) /\
  ~ translatable (main_config tool true) loop_defs /\ ~ panics_on (main_config tool true) loop_defs /\
  forall e, ~ fails_with (main_config tool true) loop_defs e.
Proof.
  split; [exact loop_parses|].
  apply (endless_exact (main_config tool true) (c34 loop_parses)). apply loop_diverges.
Qed.
