(** Old programs that meet messages of a later version of the protocol. *)
From Verif Require Import Base SpecUtf8 RustTypes SerModel DeModel SpecXdr SpecTypes XdrFacts EncProofs DecProofs CodecProofs CodecLemmas Nom NomFacts Keyword Ast
  ParserModel SpecGrammar SpecParse ParseSound ParserLemmas ConstProofs Utf8 Utf8Proofs CaseModel SpecCase CaseProofs RustAst GenModel SpecGen SpecItems
  GenFacts GenTotal GenPanic GenLemmas SpecXdl GenSem SpecWire SpecEmit SpecConv SpecSize SpecUpgrade UpgradeProofs WireBase WireEnum WireLemmas WireEnums
  ExamplesGen ExamplesWire ExamplesUpgrade ExamplesEmit.
Set Implicit Arguments.
Unset Strict Implicit.
Local Open Scope string_scope.
Local Open Scope list_scope.

(** ** A message that both programs know and one that only the later knows *)
Lemma early_free : self_free early.
Proof. intros x y l d H. cbn in H. intuition discriminate. Qed.
Lemma later_call_value dm : xtype later dm (TsIdent "request") early_call.
Proof. refine (@upgrade_value early later called dm early_later dm "call" "request" early_call _ (or_intror (conj eq_refl eq_refl)) (early_call_value dm)). auto. Qed.
Definition drop_bytes : list byte := [x00; x00; x00; x02; x00; x00; x00; x00; x00; x00; x00; x07].
Lemma later_drop : value_is later (VIdent "DROP") 2.
Proof. eapply later_label; [reflexivity|reflexivity|exact later_v2]. Qed.
Lemma later_drop_value dm : xtype later dm (TsIdent "request") (XUnion (XEnum 2) (XHyper 7)).
Proof.
  eapply xt_name_union; [apply later_type; reflexivity|]. eapply xt_case.
  - apply later_op. lia.
  - right. right. reflexivity.
  - right. right. now left.
  - now left.
  - apply label_number_is; [discriminate|discriminate|exact later_drop].
  - constructor. constructor. lia.
Qed.
Lemma drop_rfc : rfc (XUnion (XEnum 2) (XHyper 7)) drop_bytes.
Proof.
  change drop_bytes with ([x00; x00; x00; x02] ++ [x00; x00; x00; x00; x00; x00; x00; x07]).
  constructor; constructor; (split; [reflexivity|left; cbn; lia]).
Qed.

(** ** The indexer mode: an unknown member is taken for the lowest one *)
Definition early_ix_file : file := Eval vm_compute in file_of indexer_config early.
Definition early_ix_env : env := Eval vm_compute in env_of early_ix_file.
Lemma early_ix_generated : generated indexer_config early early_ix_file early_ix_env.
Proof. gens. Qed.
Lemma misread_indexer : exists fl src src' old new R f E x x' y xval bs v bs', let cfg := main_config fl true in
  greturns (fun n => parse n src) (GOk old) /\ definitions_ok cfg old /\ exact_defs cfg old /\ self_free old /\
  greturns (fun n => parse n src') (GOk new) /\ definitions_ok cfg new /\ exact_defs cfg new /\ upgrade old new R /\ generated cfg old f E /\
  R x x' /\ camel_of x y /\ (forall dm, xtype new dm (TsIdent x') xval) /\ rfc xval bs /\
  returns (fun n => from_bytes n E (TRef y) bs) (Ok v) /\ returns (fun n => to_bytes n E (TRef y) v) (Ok bs') /\ bs' <> bs.
Proof.
  exists (Flags false false true false), early_text, later_text, early, later, called, early_ix_file, early_ix_env, "op", "verb", "Op", (XEnum 2),
    [x00; x00; x00; x02], (RVariant 0 []), [x00; x00; x00; x00].
  split; [exact early_parses|]. split; [apply early_ok|]. split; [apply early_exact|]. split; [exact early_free|].
  split; [exact later_parses|]. split; [apply later_ok|]. split; [apply later_exact|]. split; [exact early_later|]. split; [exact early_ix_generated|].
  split; [now left|]. split; [now apply camel_of_iff|]. split; [intros dm; apply later_op; lia|].
  split; [constructor; split; [reflexivity|left; cbn; lia]|].
  split; [apply returns_from_bytes with 9%nat; easy|]. split; [apply returns_to_bytes with 9%nat; easy|discriminate].
Qed.

(** ** Numbers that were skipped *)
Definition holed_text : text := chars "enum e { A = 0, B = 2 };".
Definition filled_text : text := chars "enum e { A = 0, N = 1, B = 2 };".
Definition filled : list definition := Eval vm_compute in match parse 300 filled_text with GOk ds => ds | _ => [] end.
Lemma holed_parses : greturns (fun n => parse n holed_text) (GOk holed).
Proof. apply (@by_parse 300). vm_compute. reflexivity. Qed.
Lemma filled_parses : greturns (fun n => parse n filled_text) (GOk filled).
Proof. apply (@by_parse 300). vm_compute. reflexivity. Qed.
Definition filled_ops : list assign := [Assign "A" (dec "0"); Assign "N" (dec "1"); Assign "B" (dec "2")].
Lemma filled_v x s z : In (x, VConst (Decimal s)) (member_defs filled) -> constant_value KI32 (Decimal s) = GOk z -> value_is filled (VConst (Decimal s)) z.
Proof. intros I V. apply vi_number. apply (@member_stands filled x KI32); [exact (c34 filled_parses)|easy|easy]. Qed.
Lemma holed_v x s z : In (x, VConst (Decimal s)) (member_defs holed) -> constant_value KI32 (Decimal s) = GOk z -> value_is holed (VConst (Decimal s)) z.
Proof. intros I V. apply vi_number. apply (@member_stands holed x KI32); [exact holed_good|easy|easy]. Qed.
Lemma filled_v0 : value_is filled (dec "0") 0. Proof. apply (@filled_v "A"); [cbn; tauto|reflexivity]. Qed.
Lemma filled_v1 : value_is filled (dec "1") 1. Proof. apply (@filled_v "N"); [cbn; tauto|reflexivity]. Qed.
Lemma filled_v2 : value_is filled (dec "2") 2. Proof. apply (@filled_v "B"); [cbn; tauto|reflexivity]. Qed.
Lemma holed_v0 : value_is holed (dec "0") 0. Proof. apply (@holed_v "A"); [cbn; tauto|reflexivity]. Qed.
Lemma holed_v2 : value_is holed (dec "2") 2. Proof. apply (@holed_v "B"); [cbn; tauto|reflexivity]. Qed.
Lemma lone_enum cfg ds x l : type_defs ds = [(x, TdEnum x l)] -> const_defs ds = [] -> item_defs true ds = [(x, TdEnum x l)] ->
  NoDup (map fst (member_defs ds)) -> (forall a b, ~ In (a, VIdent b) (member_defs ds)) -> type_name_ok x -> enum_ok cfg ds l -> definitions_ok cfg ds.
Proof.
  intros T C I ND NI TN EO. constructor; rewrite ?T, ?C, ?I.
  - exact ND.
  - cbn. nodup.
  - cbn. split; [apply camel_distinct_by; cbn; nodup|constructor; [easy|constructor]].
  - exists (fun _ => O). rewrite C, T. split.
    + intros a b [[]|H]. now apply NI in H.
    + intros a d b [H|[]]. discriminate.
  - constructor.
  - intros y t [[= <- <-]|[]]. exact EO.
  - exists (fun _ => O). rewrite T. intros y t [[= <- <-]|[]]. exact Logic.I.
Qed.
Section Any.
  Variables (fl : flags) (checks : bool).
  Let cfg := main_config fl checks.
  Lemma holed_ok : definitions_ok cfg holed.
  Proof.
    eapply lone_enum; try reflexivity.
    - cbn. nodup.
    - cbn. intuition discriminate.
    - tname.
    - split; [discriminate|]. split; [apply camel_distinct_by; cbn; nodup|]. split; [cbn; repeat (constructor; [variant|]); constructor|]. split.
      + intros a [<-|[<-|[]]]; cbn; eexists; (split; [first [exact holed_v0|exact holed_v2]|]); lia.
      + intros a b z [<-|[<-|[]]] [<-|[<-|[]]] Va Vb; try reflexivity; exfalso; cbn in Va, Vb;
          first [pose proof (value_is_fun Va holed_v0)|pose proof (value_is_fun Va holed_v2)];
          first [pose proof (value_is_fun Vb holed_v0)|pose proof (value_is_fun Vb holed_v2)]; lia.
  Qed.
  Lemma filled_ok : definitions_ok cfg filled.
  Proof.
    eapply lone_enum; try reflexivity.
    - cbn. nodup.
    - cbn. intuition discriminate.
    - tname.
    - split; [discriminate|]. split; [apply camel_distinct_by; cbn; nodup|]. split; [cbn; repeat (constructor; [variant|]); constructor|]. split.
      + intros a [<-|[<-|[<-|[]]]]; cbn; eexists; (split; [first [exact filled_v0|exact filled_v1|exact filled_v2]|]); lia.
      + intros a b z [<-|[<-|[<-|[]]]] [<-|[<-|[<-|[]]]] Va Vb; try reflexivity; exfalso; cbn in Va, Vb;
          first [pose proof (value_is_fun Va filled_v0)|pose proof (value_is_fun Va filled_v1)|pose proof (value_is_fun Va filled_v2)];
          first [pose proof (value_is_fun Vb filled_v0)|pose proof (value_is_fun Vb filled_v1)|pose proof (value_is_fun Vb filled_v2)]; lia.
  Qed.
End Any.
Definition same (x x' : string) : Prop := x = "e" /\ x' = "e".
Lemma holed_filled : upgrade holed filled same.
Proof.
  intros x x' [-> ->]. eexists _, _. split; [apply assoc_first; reflexivity|]. split; [apply assoc_first; reflexivity|].
  intros a z [<-|[<-|[]]] V; cbn in V.
  - rewrite (value_is_fun V holed_v0). eexists. split; [now left|exact filled_v0].
  - rewrite (value_is_fun V holed_v2). eexists. split; [right; right; now left|exact filled_v2].
Qed.
Lemma misread_gap : exists fl src src' old new R f E x x' y xval bs v, let cfg := main_config fl true in
  greturns (fun n => parse n src) (GOk old) /\ definitions_ok cfg old /\ self_free old /\ enum_impl_indexer cfg = false /\ enum_impl_std_trait cfg = false /\
  greturns (fun n => parse n src') (GOk new) /\ definitions_ok cfg new /\ upgrade old new R /\ generated cfg old f E /\
  R x x' /\ camel_of x y /\ (forall dm, xtype new dm (TsIdent x') xval) /\ rfc xval bs /\
  returns (fun n => from_bytes n E (TRef y) bs) (Ok v) /\ forall dm, ~ xtype old dm (TsIdent x) xval.
Proof.
  exists (Flags false false false false), holed_text, filled_text, holed, filled, same, holed_file, holed_env, "e", "e", "E", (XEnum 1),
    [x00; x00; x00; x01], (RVariant 1 []).
  split; [exact holed_parses|]. split; [apply holed_ok|]. split; [intros x y l d H; cbn in H; intuition discriminate|]. split; [easy|]. split; [easy|].
  split; [exact filled_parses|]. split; [apply filled_ok|]. split; [exact holed_filled|]. split; [exact holed_generated|].
  split; [easy|]. split; [now apply camel_of_iff|].
  split. { intros dm. eapply xt_name_enum; [apply assoc_first; reflexivity|]. eapply xt_enum; [right; now left|exact filled_v1|lia]. }
  split; [constructor; split; [reflexivity|left; cbn; lia]|]. split; [apply returns_from_bytes with 9%nat; easy|].
  intros dm X. inversion X; subst;
    match goal with F : first "e" _ _ |- _ => apply assoc_first in F; vm_compute in F; try discriminate F; injection F as <- <- end.
  match goal with X : xtype _ _ (TsEnum _) _ |- _ => inversion X; subst end.
  match goal with I : In _ _, V : value_is _ _ _ |- _ => destruct (holed_members I V); discriminate end.
Qed.

(** the same with a union: two items become two others *)
Definition gapped : list definition := Eval vm_compute in
  parsed "enum e { A = 0, B = 2 }; union u switch (e s) { case A: int x; case B: void; }; struct m { u items<>; };".
Definition closed_gap : list definition := Eval vm_compute in
  parsed "enum e { A = 0, N = 1, B = 2 }; union u switch (e s) { case A: int x; case N: int n; case B: void; }; struct m { u items<>; };".
Definition gapped_env : env := Eval vm_compute in env_of (file_of plain_config gapped).
Definition closed_gap_env : env := Eval vm_compute in env_of (file_of plain_config closed_gap).
Definition items_bytes : list byte := [x00; x00; x00; x02; x00; x00; x00; x01; x00; x00; x00; x00; x00; x00; x00; x02].
Lemma items_mixed :
  from_bytes 20 closed_gap_env (TRef "M") items_bytes = Ok (RSeq [RSeq [RVariant 1 [RInt 0]; RVariant 2 []]]) /\
  from_bytes 20 gapped_env (TRef "M") items_bytes = Ok (RSeq [RSeq [RVariant 1 []; RVariant 0 [RInt 2]]]).
Proof. split; vm_compute; reflexivity. Qed.
