(** The statements of the wire-format properties of generated code. *)
From Verif Require Import Base SpecUtf8 RustTypes SerModel DeModel SpecXdr SpecTypes XdrFacts EncProofs DecProofs CodecProofs Nom NomFacts Ast ParserModel
  SpecGrammar SpecParse ParserLemmas ConstProofs CaseModel SpecCase CaseProofs RustAst GenModel SpecGen GenFacts GenTotal
  GenPanic SpecItems GenLemmas SpecXdl GenSem SpecWire WireBase WireEnum WireTok WireStruct WireUnion WireFile
  WireSem WireMain.
Set Implicit Arguments.
Unset Strict Implicit.
Local Open Scope list_scope.

Lemma speaks_denotes E t v x y : denotes true E t v y -> same_wire x y -> speaks E t v x.
Proof.
  intros D W. destruct (to_bytes_rfc D) as (bs & R & T). split; [exists bs; now apply W|].
  intros bs' R'. apply W in R'. rewrite (rfc_det R' R). split; [exact T|].
  apply from_bytes_accepted. now apply denotes_accepts with y.
Qed.

Section Gen.
  Variables (cfg : config) (ds : list definition).
  Hypothesis SD : supported_defs cfg ds.

  Lemma file_of f E : generated cfg ds f E -> file_facts cfg ds f.
  Proof.
    intros [H _]. destruct (gen_facts SD) as (f' & H' & FF). pose proof (greturns_fun H H') as Eq. now injection Eq as ->.
  Qed.

  Lemma w_exists : exists f E, generated cfg ds f E /\ compiles f.
  Proof.
    destruct (gen_facts SD) as (f & H & FF). destruct (env_means SD FF) as [E HE]. exists f, E. split; [easy|].
    now apply (file_compiles SD).
  Qed.

  Variables (f : file) (E : env).
  Hypothesis GE : generated cfg ds f E.
  Let FF := file_of GE.
  Let HE := proj2 GE.

  Lemma w_compiles : compiles f.
  Proof. exact (file_compiles SD FF). Qed.

  (** ** Items *)
  Lemma ref_speaks x t i T v y z : first x (type_defs ds) t -> is_typedef t = false -> find_item f (camel x) = Some i ->
    item_sem f i = Some T -> denotes true E T v y -> same_wire z y -> speaks E (TRef (camel x)) v z.
  Proof.
    intros F N FI IT D W. destruct (env_lookup HE FI) as (T2 & IT2 & LK). rewrite IT in IT2. injection IT2 as <-.
    apply speaks_denotes with y; [|easy]. now apply dn_ref with T.
  Qed.

  Lemma w_value x td xval : first x (type_defs ds) td -> is_typedef td = false ->
    (forall y l, td = TdEnum y l -> enum_impl_std_trait cfg = false \/ dense ds l) ->
    xtype ds (union_impl_union cfg) (TsIdent x) xval -> exists y v, camel_of x y /\ speaks E (TRef y) v xval.
  Proof.
    intros F N EN X. exists (camel x).
    assert (K : exists k, tkind cfg ds (TsIdent x) k /\ attr_of k = ANone).
    { destruct td as [d|y l|y l|y u]; [discriminate| | |].
      - destruct (enum_impl_std_trait cfg) eqn:st.
        + exists KDense. split; [|easy]. eapply tk_dense; eauto. destruct (EN _ _ eq_refl); easy.
        + exists KPlain. split; [|easy]. eapply tk_enum; eauto.
      - exists KPlain. split; [|easy]. eapply tk_struct; eauto.
      - exists KPlain. split; [|easy]. eapply tk_union; eauto. }
    destruct K as (k & K & A). destruct (proj1 (tok_total cfg ds) _ _ K) as [ty TK].
    destruct (tkind_field SD FF K TK) as [T FS].
    destruct (proj1 (proj1 (values SD FF HE) _ _ X) k ty T K TK FS) as (v & y & D & W).
    exists v. split; [apply camel_of_camel|]. rewrite (item_named F N TK), A in FS. cbn in FS.
    destruct (find_item f (camel x)); [|discriminate]. injection FS as <-. now apply speaks_denotes with y.
  Qed.

  (** ** Structs *)
  Lemma Forall2_comp {A B C} (P : A -> B -> Prop) (Q : B -> C -> Prop) (R : A -> C -> Prop) l m n :
    Forall2 P l m -> Forall2 Q m n -> (forall a b c, In a l -> P a b -> Q b c -> R a c) -> Forall2 R l n.
  Proof.
    intros H. revert n. induction H as [|a b l m h H IH]; intros n K HR; inversion K; subst; constructor.
    - eapply HR; eauto. now left.
    - apply IH; [easy|]. intros. eapply HR; eauto. now right.
  Qed.

  Lemma w_struct x y l : first x (type_defs ds) (TdStruct y l) ->
    exists s ts, In (IStruct s) (fi_types f) /\ camel_of x (st_name s) /\ lookup E (st_name s) = Some (TStruct ts) /\
      Forall2 (fun d q => (exists n, declared d = Some n /\ snaked (chars n) (chars (fst q))) /\
                 forall xval, xdecl ds (union_impl_union cfg) d xval -> exists v, speaks E (snd q) v xval) l ts /\
      (forall xs, xfields ds (union_impl_union cfg) l xs -> exists vs, speaks E (TRef (st_name s)) (RSeq vs) (XStruct xs)).
  Proof.
    intros F. destruct (find_item_of SD FF F eq_refl) as (i & HI & FI & EN & _ & s & -> & SF).
    cbn in EN. destruct (struct_means SD FF SF) as (ts & ES & FT). exists s, ts.
    split; [easy|]. split; [rewrite EN; apply camel_of_camel|].
    destruct (env_lookup HE FI) as (T & IT & LK). cbn in IT. rewrite ES in IT. injection IT as <-.
    split; [now rewrite EN|]. split.
    - assert (NM : Forall2 (fun fd (q : string * ty) => fst q = rident_name (fd_name fd) /\ field_sem f (fd_attr fd) (fd_ty fd) = Some (snd q)) (st_fields s) ts).
      { clear - ES. unfold struct_sem in ES. destruct (omap _ (st_fields s)) as [ts'|] eqn:EO; [|discriminate]. injection ES as <-.
        apply omap_some in EO. eapply Forall2_impl_in; [exact EO|]. cbn. intros fd q _ _ H.
        destruct (field_sem f (fd_attr fd) (fd_ty fd)); [|discriminate]. now injection H as <-. }
      pose proof (sd_items SD (first_in F)) as SO. cbn in SO. destruct SO as [(xs & NX & _ & FX) _].
      eapply Forall2_comp; [exact SF|exact NM|]. intros d fd q Hd FD [NQ SQ]. split.
      + destruct FD as (k & nm & ty & _ & _ & DN & _ & EF & _). exists nm. split; [easy|]. rewrite NQ, EF.
        destruct (Forall2_in_l NX Hd) as (nm' & Hn & DN'). rewrite DN in DN'. injection DN' as <-.
        rewrite Forall_forall in FX. destruct (FX _ Hn) as [U _]. rewrite field_ident_name.
        * apply snake_exact. unfold snake. now rewrite list_ascii_of_string_of_list_ascii.
        * intros H. apply U. unfold unusable in H. cbn [In] in *. tauto.
      + intros xval X. pose proof (proj1 (proj2 (values SD FF HE)) _ _ X) as P1.
        destruct FD as (k & nm & ty & K & _ & _ & T & _ & EA & FT'). destruct FT' as [[_ ET]|(ET & _ & ->)]; rewrite EA, ET in SQ.
        * destruct (proj2 P1 _ _ _ K T SQ) as (v & yy & DV & WV). exists v. now apply speaks_denotes with yy.
        * cbn in SQ. destruct (ty_sem f ty) as [T'|] eqn:E'; [|discriminate]. injection SQ as <-.
          destruct (proj2 P1 _ _ T' K T E') as (v & yy & DV & WV). exists v. apply speaks_denotes with yy; [|easy]. now apply dn_box.
    - intros xs X. pose proof (proj2 (proj2 (proj2 (values SD FF HE))) _ _ X) as P.
      destruct (fields_values SF P FT) as (vs & ys & D & W). exists vs. rewrite EN.
      eapply (ref_speaks F eq_refl FI ES (y := XStruct ys)); [now apply dn_struct|now apply same_struct].
  Qed.

  (** ** Unions *)
  Lemma w_union x y t nm specs dflt : first x (type_defs ds) (TdUnion y (UBody (DVariable t nm) specs dflt)) ->
    exists u, In (IUnion u) (fi_types f) /\ camel_of x (un_name u) /\
      forall d z arm a, xtype ds (union_impl_union cfg) t d -> number_of d z -> xdecl ds (union_impl_union cfg) arm a ->
        (exists vs v, In (CaseSpec vs arm) specs /\ In v vs /\ label_is ds v z) \/
        union_impl_union cfg = true /\ dflt = Some arm /\ (forall v, In v (labels specs) -> ~ label_is ds v z) ->
        exists i vs n, variant_at u i n /\ arm_for ds (union_impl_union cfg) specs dflt z arm n /\
          speaks E (TRef (un_name u)) (RVariant i vs) (XUnion d a).
  Proof.
    intros F. destruct (find_item_of SD FF F eq_refl) as (i & HI & FI & EN & _ & u & -> & t' & nm' & cty & cs & vs & dvs & Ec & UF).
    injection Ec as <- <-. cbn in EN. exists u. split; [easy|]. split; [rewrite EN; apply camel_of_camel|].
    destruct (env_lookup HE FI) as (T & IT & LK). pose proof IT as UT. cbn in UT.
    pose proof (sd_items SD (first_in F)) as SU. destruct SU as (_ & (t' & nm' & Ec & DO) & _). injection Ec as <- <-.
    intros d z arm a XD ND XA SEL. pose proof (proj1 (proj2 (values SD FF HE)) _ _ XA) as PA.
    assert (W : exists i vv y n, denotes true E T (RVariant i vv) y /\ same_wire (XUnion d a) y /\
        variant_at u i n /\ arm_for ds (union_impl_union cfg) specs dflt z arm n).
    { destruct (union_modes cfg) as [M1|[M2|ci]].
      - exact (indexer_value SD FF UF XD ND PA SEL M1 UT).
      - exact (union_value SD FF HE UF DO XD ND PA SEL M2 UT).
      - exact (serde_value SD FF UF XD ND PA SEL ci UT). }
    destruct W as (i & vv & yy & n & D & W & VA & AR). exists i, vv, n. split; [easy|]. split; [easy|]. rewrite EN.
    eapply (ref_speaks F eq_refl FI IT); eassumption.
  Qed.
End Gen.

(** ** The properties *)
Section Unions.
  Variables (cfg : config) (ds : list definition) (f : file) (E : env) (x y : string) (t : tyspec) (nm : string) (specs : list cspec) (dflt : option decl).
  Hypothesis SD : supported_defs cfg ds.
  Hypothesis GE : generated cfg ds f E.
  Hypothesis F : first x (type_defs ds) (TdUnion y (UBody (DVariable t nm) specs dflt)).
  Lemma arms : union_impl_union cfg = false -> exists u, In (IUnion u) (fi_types f) /\ camel_of x (un_name u) /\
    forall d z vs lb arm a, xtype ds false t d -> number_of d z -> xdecl ds false arm a ->
      In (CaseSpec vs arm) specs -> In lb vs -> label_is ds lb z ->
      exists i vv n, variant_at u i n /\ arm_for ds false specs dflt z arm n /\ speaks E (TRef (un_name u)) (RVariant i vv) (XUnion d a).
  Proof.
    intros U. destruct (w_union SD GE F) as (u & HI & C & W). rewrite U in W. exists u. split; [easy|]. split; [easy|].
    intros d z vs lb arm a XD ND XA HC HL LB. apply W; eauto 6.
  Qed.
  Lemma c46 : union_complement_index cfg = true -> exists u, In (IUnion u) (fi_types f) /\ camel_of x (un_name u) /\
    forall d z vs lb arm a, xtype ds false t d -> number_of d z -> xdecl ds false arm a ->
      In (CaseSpec vs arm) specs -> In lb vs -> label_is ds lb z ->
      exists i vv n, variant_at u i n /\ arm_for ds false specs dflt z arm n /\ speaks E (TRef (un_name u)) (RVariant i vv) (XUnion d a).
  Proof. unfold union_complement_index. intros H. apply andb_prop in H as [_ H]. apply negb_true_iff in H. now apply arms. Qed.
  Lemma c47 : union_impl_indexer cfg = true -> exists u, In (IUnion u) (fi_types f) /\ camel_of x (un_name u) /\
    forall d z vs lb arm a, xtype ds false t d -> number_of d z -> xdecl ds false arm a ->
      In (CaseSpec vs arm) specs -> In lb vs -> label_is ds lb z ->
      exists i vv n, variant_at u i n /\ arm_for ds false specs dflt z arm n /\ speaks E (TRef (un_name u)) (RVariant i vv) (XUnion d a).
  Proof. intros H. destruct (sd_union_mode SD) as [K|K]; [congruence|now apply arms]. Qed.
  Lemma c48 : union_impl_union cfg = true -> exists u, In (IUnion u) (fi_types f) /\ camel_of x (un_name u) /\
    forall d z arm a, xtype ds true t d -> number_of d z -> xdecl ds true arm a ->
      (exists vs v, In (CaseSpec vs arm) specs /\ In v vs /\ label_is ds v z) \/
      dflt = Some arm /\ (forall v, In v (labels specs) -> ~ label_is ds v z) ->
      exists i vs n, variant_at u i n /\ arm_for ds true specs dflt z arm n /\
        speaks E (TRef (un_name u)) (RVariant i vs) (XUnion d a).
  Proof.
    intros U. destruct (w_union SD GE F) as (u & HI & C & W). rewrite U in W. exists u. split; [easy|]. split; [easy|].
    intros d z arm a XD ND XA [H|[H K]]; apply W; eauto.
  Qed.
End Unions.

Lemma supported_main fl checks src ds : greturns (fun n => parse n src) (GOk ds) ->
  definitions_ok (main_config fl checks) ds -> supported_defs (main_config fl checks) ds.
Proof.
  intros P [A1 A2 A3 A4 A5 A6 A7]. constructor; try assumption.
  - reflexivity.
  - destruct fl as [[] [] [] []]; (left; reflexivity) || (right; reflexivity).
  - destruct fl as [[] [] [] []]; (left; reflexivity) || (right; reflexivity).
  - exact (c34 P).
Qed.

Lemma c56 fl checks src ds : let cfg := main_config fl checks in
  greturns (fun n => parse n src) (GOk ds) -> definitions_ok cfg ds ->
  exists f E, generated cfg ds f E /\ compiles f /\
    forall x td xval, first x (type_defs ds) td -> is_typedef td = false ->
      (forall y l, td = TdEnum y l -> enum_impl_std_trait cfg = false \/ dense ds l) ->
      xtype ds (union_impl_union cfg) (TsIdent x) xval -> exists y v, camel_of x y /\ speaks E (TRef y) v xval.
Proof.
  intros cfg P DO. pose proof (supported_main P DO : supported_defs cfg ds) as SD. destruct (w_exists SD) as (f & E & GE & C). exists f, E. split; [easy|]. split; [easy|].
  intros x td xval. exact (@w_value cfg ds SD f E GE x td xval).
Qed.
