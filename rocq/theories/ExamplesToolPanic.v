(** Concrete cases for the files on which the generator panics (C117). *)
From Verif Require Import Base RustTypes Nom Keyword Ast ParserModel SpecGrammar SpecParse ParserLemmas ConstProofs CaseModel SpecCase RustAst GenModel SpecGen SpecItems GenFacts GenPanic GenLemmas
  SpecTranslate SpecToolPanic ToolPanicUnion ExamplesGen ExamplesTranslate.
Local Open Scope string_scope.
Local Open Scope list_scope.

(** the gap between -3 and 0 *)
Lemma gap_panics : panics_on (main_config tool true) gap_file.
Proof.
  split; [constructor|]. exists [], ("e", TdEnum "e" [Assign "A" (VConst (Decimal "-3")); Assign "B" (VConst (Decimal "0"))]), [].
  split; [reflexivity|]. split; [constructor|]. split.
  - exists [-3; 0]. constructor; [|constructor; [|constructor]]; (split; [constructor; [|cbn; lia]|lia]).
    + exact (sf_negative _ _ (@one_digit 3 "3" eq_refl ltac:(lia))).
    + exact (sf_decimal _ _ (@one_digit 0 "0" eq_refl ltac:(lia))).
  - intros T. destruct gap_case as (_ & N). apply N. split; [constructor|]. now constructor.
Qed.

(** the arm with the smaller number comes first, whatever the order in the file *)
Definition low_text : text := chars "union u switch (int d) { case 2: quadruple q; case 1: _9 x; };".
Definition low_file : list definition :=
  Eval vm_compute in match parse 900 low_text with GOk ds => ds | _ => [] end.
Lemma low_parses : greturns (fun n => parse n low_text) (GOk low_file).
Proof. apply (@by_parse 900). vm_compute. reflexivity. Qed.
Lemma stands_1 : stands_for (Decimal "1") 1.
Proof. exact (sf_decimal _ _ (@one_digit 1 "1" eq_refl ltac:(lia))). Qed.
Lemma low_panics : panics_on (main_config tool true) low_file.
Proof.
  split; [constructor|].
  exists [], ("u", TdUnion "u" (UBody (DVariable (TsInt true) "d") [CaseSpec [VConst (Decimal "2")] (DVariable TsQuadruple "q");
    CaseSpec [VConst (Decimal "1")] (DVariable (TsIdent "_9") "x")] None)), [].
  split; [reflexivity|]. split; [constructor|]. right. exists (TsInt true), "d". split; [reflexivity|].
  exists [(2, DVariable TsQuadruple "q", VConst (Decimal "2")); (1, DVariable (TsIdent "_9") "x", VConst (Decimal "1"))]. split.
  - constructor; [|constructor; [|constructor]]; cbn [fst snd]; (split; [reflexivity|]); (split; [reflexivity|]); (split; [constructor; [|cbn; lia]|lia]).
    + exact stands_2.
    + exact stands_1.
  - left. exists (1, DVariable (TsIdent "_9") "x", VConst (Decimal "1")). split.
    + exists [(2, DVariable TsQuadruple "q", VConst (Decimal "2"))], []. split; [reflexivity|]. cbn [In]. split; [|easy].
      intros r [<-|[]]. cbn [fst]. lia.
    + do 3 right. left. split; [left; do 2 constructor|]. exists (TsIdent "_9"). split; [reflexivity|].
      apply un_name; [|discriminate]. intros d [_ H]. apply assoc_first in H. vm_compute in H. discriminate.
Qed.
Lemma low_case : greturns (fun n => parse n low_text) (GOk low_file) /\ panics_on (main_config tool true) low_file.
Proof. split; [exact low_parses|exact low_panics]. Qed.

(** the same with the numbers exchanged: an error *)
Definition high_text : text := chars "union u switch (int d) { case 1: quadruple q; case 2: _9 x; };".
Definition high_file : list definition :=
  Eval vm_compute in match parse 900 high_text with GOk ds => ds | _ => [] end.
Lemma high_parses : greturns (fun n => parse n high_text) (GOk high_file).
Proof. apply (@by_parse 900). vm_compute. reflexivity. Qed.
Lemma high_case : greturns (fun n => parse n high_text) (GOk high_file) /\ well_founded_names high_file /\
  ~ translatable (main_config tool true) high_file /\ ~ panics_on (main_config tool true) high_file.
Proof.
  assert (W : well_founded_names high_file).
  { exists (fun _ => O). split; [now intros x y [[]|[]]|]. intros x d y [H|[]]. discriminate H. }
  split; [exact high_parses|]. split; [exact W|].
  apply (error_rest (main_config tool true) (c34 high_parses) W). exists GNotSupported.
  apply (@by_gen 900); [vm_compute; reflexivity|discriminate].
Qed.
