(** What generated code decodes is a value of the protocol; programs generated
    from the same text with different flags understand each other. *)
From Verif Require Import Base RustTypes SerModel DeModel SpecXdr SpecTypes EncProofs DecProofs CodecProofs Nom Ast ParserModel SpecGrammar SpecParse CaseModel SpecCase CaseProofs RustAst
  GenModel SpecGen GenFacts GenPanic SpecItems GenLemmas SpecXdl GenSem SpecWire SpecEmit SpecConv EmitProofs WireBase WireEnum WireFile WireSem WireMain WireLemmas WireConv MaxDefs.
Set Implicit Arguments.
Unset Strict Implicit.
Local Open Scope list_scope.

Lemma generated_max cfg ds f E : generated cfg ds f E -> generated cfg (map def_without_max ds) f E.
Proof. intros [[N [n H]] HE]. split; [|easy]. split; [easy|]. exists n. intros m Hm. rewrite max_ignored. auto. Qed.

Section Decoded.
  Variables (cfg : config) (ds : list definition).
  Hypothesis SD : supported_defs cfg ds.
  Hypothesis EX : exact_defs cfg ds.
  Variables (f : file) (E : env).
  Hypothesis GE : generated cfg ds f E.
  Let ds' := map def_without_max ds.
  Let SD' := supported_max SD.
  Let GE' := generated_max GE.

  Lemma d_value x td n bs v : first x (type_defs ds) td -> is_typedef td = false ->
    (forall y l, td = TdEnum y l -> enum_impl_std_trait cfg = false \/ dense ds l) ->
    from_bytes n E (TRef (camel x)) bs = Ok v ->
    exists xv, xtype ds' (union_impl_union cfg) (TsIdent x) xv /\ speaks E (TRef (camel x)) v xv.
  Proof.
    intros F N EN H. pose proof (first_max F) as F'.
    refine (@decoded cfg ds' SD' f (file_of SD' GE') E (proj2 GE') (max_idem ds) (exact_max EX) x _ bs n v F' _ _ H).
    - now destruct td.
    - intros y l Et. destruct td; try discriminate. injection Et as <- <-. destruct (EN _ _ eq_refl) as [M|D]; [now left|]. right. now apply dense_max.
  Qed.
End Decoded.

Lemma c78 fl checks src ds : let cfg := main_config fl checks in
  greturns (fun n => parse n src) (GOk ds) -> definitions_ok cfg ds -> exact_defs cfg ds ->
  exists f E, generated cfg ds f E /\ compiles f /\
    forall x td, first x (type_defs ds) td -> is_typedef td = false ->
      (forall y l, td = TdEnum y l -> enum_impl_std_trait cfg = false \/ dense ds l) ->
      exists y, camel_of x y /\ forall n bs v, from_bytes n E (TRef y) bs = Ok v ->
        exists xval, xtype (map def_without_max ds) (union_impl_union cfg) (TsIdent x) xval /\ speaks E (TRef y) v xval.
Proof.
  intros cfg P DO EX. pose proof (supported_main P DO : supported_defs cfg ds) as SD. destruct (w_exists SD) as (f & E & GE & C). exists f, E. split; [easy|]. split; [easy|].
  intros x td F N EN. exists (camel x). split; [apply camel_of_camel|]. intros n bs v. now apply (d_value SD EX GE F).
Qed.

(** ** Default arms *)
Section Defaults.
  Variables (cfg : config) (ds : list definition) (b : bool).
  Hypothesis OK : forall x t, In (x, t) (type_defs ds) ->
      match t with
      | TdDecl _ => True
      | TdEnum _ l => enum_ok cfg ds l
      | TdStruct _ l => struct_ok cfg ds l
      | TdUnion _ u => union_supported cfg ds u
      end.
  Hypothesis EX : exact_defs cfg ds.

  Lemma weaken dm : dm = false ->
    (forall t x, xtype ds dm t x -> xtype ds b t x) /\ (forall d x, xdecl ds dm d x -> xdecl ds b d x) /\
    (forall t xs, xall ds dm t xs -> xall ds b t xs) /\ (forall l xs, xfields ds dm l xs -> xfields ds b l xs).
  Proof.
    intros ->. apply xtype_xdecl_ind; intros; try (now constructor); try discriminate.
    - eapply xt_enum; eauto.
    - eapply xt_case; eauto.
    - eapply xt_typedef; eauto.
    - eapply xt_name_enum; eauto.
    - eapply xt_name_struct; eauto.
    - eapply xt_name_union; eauto.
  Qed.

  (** without default arms *)
  Hypothesis ND : union_impl_union cfg = false.
  Let body (t : tyspec) (x : xv) : Prop :=
    match t with
    | TsEnum _ => xtype ds false t x
    | TsStruct l => struct_ok cfg ds l -> xtype ds false t x
    | TsUnion u => union_supported cfg ds u -> union_exact cfg ds u -> xtype ds false t x
    | _ => True
    end.
  Lemma no_defaults dm :
    (forall t x, xtype ds dm t x -> (forall k, tkind cfg ds t k -> xtype ds false t x) /\ body t x) /\
    (forall d x, xdecl ds dm d x -> d = DVoid \/ (exists k, dkind cfg ds d k) -> xdecl ds false d x) /\
    (forall t xs, xall ds dm t xs -> forall k, tkind cfg ds t k -> xall ds false t xs) /\
    (forall l xs, xfields ds dm l xs -> Forall (fun d => exists k, dkind cfg ds d k /\ k <> KDense) l -> xfields ds false l xs).
  Proof.
    apply xtype_xdecl_ind.
    1-11: intros; split; [intros; now constructor|easy].
    - intros l a z Ha V R. split; [intros k K; inversion K|]. now apply xt_enum with a.
    - intros l xs _ H. split; [intros k K; inversion K|]. intros [_ F]. constructor. now apply H.
    - intros t y specs dflt d z vs v arm a _ [XD _] N H1 H2 L _ A. split; [intros k K; inversion K|].
      intros (_ & (t' & y' & [= <- <-] & DO) & _ & _ & FA & _) _.
      assert (K : exists k, tkind cfg ds t k).
      { unfold disc_ok in DO. rewrite ND in DO. destruct t; try easy; try apply DO. exists KPlain. constructor. }
      destruct K as [k K]. apply xt_case with z vs v arm; try easy; [now apply (XD k)|]. apply A.
      rewrite Forall_forall in FA. specialize (FA _ H1). destruct FA as [->|(k' & K' & _)]; [now left|right; eauto].
    - intros t y specs d z arm a DM _ _ N L _ A. split; [intros k K; inversion K|]. intros _ (_ & D & _). specialize (D ND). discriminate.
    - intros n d x F _ H. split; [|easy]. intros k K. apply xt_typedef with d; [easy|]. apply H. right.
      inversion K as [| | | | | | |? ? ? F'|? ? ? F'|? ? ? F'|? ? ? F'|? ? ? F'|? d' ? F' D' _|? d' F' D']; subst;
        try (discriminate (first_fun F F')); pose proof (first_fun F F') as Eq; injection Eq as <-; eauto.
    - intros n y l x F _ [_ H]. split; [|easy]. intros k K. now apply xt_name_enum with y l.
    - intros n y l x F _ [_ H]. split; [|easy]. intros k K. apply xt_name_struct with y l; [easy|]. apply H. exact (OK (first_in F)).
    - intros n y u x F _ [_ H]. split; [|easy]. intros k K. apply xt_name_union with y u; [easy|]. apply H; [exact (OK (first_in F))|exact (EX (first_in F))].
    - intros t y x _ [H _] [?|[k K]]; [discriminate|]. inversion K; subst. constructor. eauto.
    - intros t y v xs V _ H [?|[k K]]; [discriminate|]. inversion K; subst. constructor; eauto.
    - intros t y max xs W _ H [?|[k K]]; [discriminate|]. inversion K; subst. constructor; eauto.
    - intros y v bs V _. now constructor.
    - intros y max bs W _. now constructor.
    - intros y max bs U W _. now constructor.
    - constructor.
    - intros t y x _ [H _] [?|[k K]]; [discriminate|]. inversion K; subst. constructor. eauto.
    - constructor.
    - constructor.
    - intros t x xs _ [H _] _ HS k K. constructor; eauto.
    - constructor.
    - intros d l x xs _ H1 _ H2 F. inversion F as [|? ? (k & K & _) F']; subst. constructor; [apply H1; eauto|auto].
  Qed.
End Defaults.

Lemma named_kind cfg ds x td : first x (type_defs ds) td -> is_typedef td = false -> exists k, tkind cfg ds (TsIdent x) k.
Proof.
  intros F N. destruct td as [d|y l|y l|y u]; [discriminate| | |].
  - destruct (enum_impl_std_trait cfg) eqn:st; [exists KStd; now apply tk_std with y l|exists KPlain; now apply tk_enum with y l].
  - exists KPlain. now apply tk_struct with y l.
  - exists KPlain. now apply tk_union with y u.
Qed.

(** ** Two programs *)
Lemma c77 fl fl' checks checks' src ds f f' E E' :
  let cfg := main_config fl checks in let cfg' := main_config fl' checks' in
  greturns (fun n => parse n src) (GOk ds) ->
  definitions_ok cfg ds -> exact_defs cfg ds -> definitions_ok cfg' ds -> exact_defs cfg' ds ->
  generated cfg ds f E -> generated cfg' ds f' E' ->
  forall x td, first x (type_defs ds) td -> is_typedef td = false ->
    (forall y l, td = TdEnum y l ->
       enum_impl_std_trait cfg = false /\ enum_impl_std_trait cfg' = false \/ dense ds l) ->
    exists y, camel_of x y /\ forall n bs v, from_bytes n E (TRef y) bs = Ok v ->
      exists bs' v', returns (fun n => to_bytes n E (TRef y) v) (Ok bs') /\
        returns (fun n => from_bytes n E' (TRef y) bs') (Ok v') /\
        returns (fun n => to_bytes n E' (TRef y) v') (Ok bs') /\
        returns (fun n => from_bytes n E (TRef y) bs') (Ok v).
Proof.
  intros cfg cfg' P DO EX DO' EX' GE GE' x td F N EN. exists (camel x). split; [apply camel_of_camel|]. intros n bs v H.
  pose proof (supported_main P DO : supported_defs cfg ds) as SD. pose proof (supported_main P DO' : supported_defs cfg' ds) as SD'.
  assert (EN1 : forall y l, td = TdEnum y l -> enum_impl_std_trait cfg = false \/ dense ds l).
  { intros y l Et. destruct (EN y l Et) as [[? _]|?]; auto. }
  destruct (d_value SD EX GE F N EN1 H) as (xv & X & (bs' & R) & S).
  assert (X' : xtype (map def_without_max ds) (union_impl_union cfg') (TsIdent x) xv).
  { destruct (union_impl_union cfg) eqn:M.
    - destruct (union_impl_union cfg') eqn:M'; [easy|]. pose proof (first_max F) as F'.
      destruct (@named_kind cfg' (map def_without_max ds) x (type_without_max td) F') as [k K]; [now destruct td|].
      refine (proj1 (proj1 (no_defaults _ (exact_max EX') M' true) _ _ X) k K).
      exact (sd_items (supported_max SD')).
    - now apply (proj1 (@weaken (map def_without_max ds) (union_impl_union cfg') false eq_refl)). }
  destruct (@w_value cfg' (map def_without_max ds) (supported_max SD') f' E' (generated_max GE') x (type_without_max td) xv) as (y & v' & Cy & S'); try easy.
  - now apply first_max.
  - now destruct td.
  - intros y l Et. destruct td; try discriminate. injection Et as <- <-. destruct (EN _ _ eq_refl) as [[_ ?]|D]; [now left|right; now apply dense_max].
  - destruct S' as [_ S']. destruct (S bs' R) as [S1 S2]. destruct (S' bs' R) as [S3 S4].
    assert (y = camel x) as -> by (now apply camel_of_iff in Cy).
    exists bs', v'. easy.
Qed.
