(** Typedefs are expanded faithfully. *)
From Verif Require Import Base SpecUtf8 RustTypes SerModel DeModel SpecXdr SpecTypes XdrFacts EncProofs DecProofs CodecProofs CodecLemmas Nom NomFacts Ast ParserModel
  SpecGrammar SpecParse ConstProofs CaseModel SpecCase CaseProofs RustAst GenModel SpecGen GenFacts GenTotal
  GenPanic SpecItems GenLemmas SpecXdl GenSem SpecWire WireBase WireEnum WireTok WireStruct WireUnion WireFile
  WireSem WireMain WireLemmas WireBack WireEnums.
Set Implicit Arguments.
Unset Strict Implicit.
Local Open Scope list_scope.

Lemma find_here f i : NoDup (map GenSem.item_name (fi_types f)) -> In i (fi_types f) -> find_item f (GenSem.item_name i) = Some i.
Proof.
  unfold find_item. generalize (fi_types f) as l. induction l as [|j l IH]; intros N []; cbn; inversion N; subst.
  - now rewrite String.eqb_refl.
  - destruct (String.eqb_spec (GenSem.item_name j) (GenSem.item_name i)) as [e|ne]; [|auto].
    exfalso. match goal with H : ~ In _ _ |- _ => apply H end. rewrite e. now apply in_map.
Qed.

Lemma nth_Forall2 {A B} (P : A -> B -> Prop) l m i a : Forall2 P l m -> nth_error l i = Some a ->
  exists b, nth_error m i = Some b /\ P a b.
Proof.
  intros H. revert i. induction H as [|x y l m h H IH]; intros [|i]; cbn; try discriminate.
  - intros [= <-]. eauto.
  - apply IH.
Qed.

(** the type of a field *)
Lemma field_of_struct cfg ds f E n x y l i d : gen_code n cfg ds = GOk f -> compiles f -> file_env f = Some E ->
  In (x, TdStruct y l) (type_defs ds) -> nth_error l i = Some d ->
  exists nm ts a T fd, camel_of x nm /\ lookup E nm = Some (TStruct ts) /\ nth_error ts i = Some (a, T) /\
    struct_field (ctx cfg ds) n x d = GOk fd /\ field_sem f (fd_attr fd) (fd_ty fd) = Some T.
Proof.
  intros H C HE I Hd. destruct (item_from H I) as (its & T & S). cbn [type_token_of] in T.
  apply gbind_ok in T as (s & T & X). injection X as <-. unfold convert_struct_token in T.
  apply gbind_ok in T as (fs & HF & T). apply gbind_ok in T as (nm & HN & T). injection T as <-.
  apply camel_back in HN as [-> _]. apply gmap_ok in HF.
  destruct C as (ND & _). specialize (S _ (or_introl eq_refl)). pose proof (find_here ND S) as FI.
  destruct (env_lookup HE FI) as (T & IT & LK). cbn in IT, LK. unfold struct_sem in IT. cbn [st_fields] in IT.
  destruct (omap _ fs) as [ts|] eqn:EO; [|discriminate]. injection IT as <-. apply omap_some in EO.
  destruct (nth_Forall2 HF Hd) as (fd & Hfd & SF). destruct (nth_Forall2 EO Hfd) as ([a T] & Ht & ET).
  destruct (field_sem f (fd_attr fd) (fd_ty fd)) as [T'|] eqn:FS; [|discriminate]. injection ET as <- <-.
  exists (camel x), ts, (rident_name (fd_name fd)), T', fd. split; [apply camel_of_camel|]. easy.
Qed.

Section Tokens.
  Variables (cfg : config) (ds : list definition).
  Hypothesis RM : remove_typedef cfg = true.
  Let cx := ctx cfg ds.

  Lemma resolve_unboxed n : forall x ty op, resolve_type_token cx n x = GOk (ty, op) -> forall t, ty <> YBox t.
  Proof.
    induction n as [|n IH]; intros x ty op; cbn [resolve_type_token]; [discriminate|].
    change (cx_config cx) with cfg. rewrite RM.
    assert (N : forall z, (name <~ upper_camel_case_ident z;; GOk (YName name, OpNone)) = GOk (ty, op) -> forall t, ty <> YBox t).
    { intros z H. apply gbind_ok in H as (nm & _ & [= <- <-]). discriminate. }
    destruct (assoc _ _ _) as [[d| | |]|]; try apply N. intros H. apply gbind_ok in H as (o & H & R).
    destruct o as [o|]; [|discriminate]. injection R as ->.
    destruct d as [t y|t y v|t y o|y v|y o|y o|t y|]; cbn in H.
    - apply gbind_ok in H as (r & H & [= ->]). destruct t; cbn in H; try (injection H as <- <-; discriminate); try discriminate. eauto.
    - apply gbind_ok in H as ([ty' op'] & _ & H). apply gbind_ok in H as (len & _ & [= <- <-]). discriminate.
    - apply gbind_ok in H as ([ty' op'] & _ & H). destruct op'; injection H as <- <-; discriminate.
    - apply gbind_ok in H as (len & _ & [= <- <-]). discriminate.
    - injection H as <- <-. discriminate.
    - injection H as <- <-. discriminate.
    - apply gbind_ok in H as ([ty' op'] & _ & [= <- <-]). discriminate.
    - discriminate.
  Qed.
  Lemma type_unboxed n d ty op : convert_type_token (resolve_type_token cx n) d = GOk (Some (ty, op)) -> forall t, ty <> YBox t.
  Proof.
    intros H. destruct d as [t y|t y v|t y o|y v|y o|y o|t y|]; cbn in H.
    - apply gbind_ok in H as (r & H & [= ->]). destruct t; cbn in H; try (injection H as <- <-; discriminate); try discriminate.
      eapply resolve_unboxed; eauto.
    - apply gbind_ok in H as ([ty' op'] & _ & H). apply gbind_ok in H as (len & _ & [= <- <-]). discriminate.
    - apply gbind_ok in H as ([ty' op'] & _ & H). destruct op'; injection H as <- <-; discriminate.
    - apply gbind_ok in H as (len & _ & [= <- <-]). discriminate.
    - injection H as <- <-. discriminate.
    - injection H as <- <-. discriminate.
    - apply gbind_ok in H as ([ty' op'] & _ & [= <- <-]). discriminate.
    - discriminate.
  Qed.

  (** a use of a typedef name becomes the type of its declaration *)
  Lemma typedef_token n x y d r : first x (type_defs ds) (TdDecl d) ->
    convert_type_token (resolve_type_token cx n) (DVariable (TsIdent x) y) = GOk (Some r) ->
    convert_type_token (resolve_type_token cx n) d = GOk (Some r).
  Proof.
    intros F H. cbn in H. apply gbind_ok in H as (r' & H & [= ->]). destruct n as [|n]; [discriminate|].
    cbn [resolve_type_token] in H. change (cx_config cx) with cfg in H. rewrite RM in H. apply assoc_first in F.
    change (typedefs cx) with (type_defs ds) in H. rewrite F in H. apply gbind_ok in H as (o & H & R).
    destruct o as [o|]; [|discriminate]. injection R as ->.
    assert (L : convert_type_token (resolve_type_token cx n) d <> GFuel) by (rewrite H; discriminate).
    pose proof (@type_token_mono cfg ds d n (S n)) as M. cbn beta in M. change (ctx cfg ds) with cx in M. now rewrite M by (easy || lia).
  Qed.
  Lemma expands_token n d d' : expands ds d d' -> forall r, convert_type_token (resolve_type_token cx n) d = GOk (Some r) ->
    convert_type_token (resolve_type_token cx n) d' = GOk (Some r).
  Proof.
    induction 1 as [d y|z x d d' F EX IH]; intros r H.
    - rewrite <- H. now destruct d.
    - apply IH. eapply typedef_token; eauto.
  Qed.

  Lemma field_parts n x d fd : struct_field cx n x d = GOk fd -> exists ty op,
    convert_type_token (resolve_type_token cx n) d = GOk (Some (ty, op)) /\
    (fd_ty fd = ty \/ fd_ty fd = YBox ty) /\
    fd_attr fd = match op with OpFixed => AFixed | OpVariable => AVariable
      | OpNone => if enum_impl_std_trait cfg && match decl_type d with Some t => is_enum_type cx t | None => false end then ASigned32 else ANone end.
  Proof.
    unfold struct_field. destruct (decl_name d); [|discriminate]. intros H. apply gbind_ok in H as (o & H & K).
    destruct o as [[ty op]|]; [|discriminate]. cbn [gbind required] in K. apply gbind_ok in K as (id & _ & K). injection K as <-.
    exists ty, op. split; [exact H|]. cbn. split; [destruct (tyspec_is _ _); tauto|reflexivity].
  Qed.
  Lemma unboxed_sem f a ty t T : (forall t, ty <> YBox t) -> t = ty \/ t = YBox ty -> field_sem f a t = Some T -> field_sem f a ty = Some (unboxed T).
  Proof.
    intros N [->| ->] H.
    - rewrite H. f_equal. destruct T; try reflexivity. exfalso.
      assert (B : forall ty t', ty_sem f ty = Some (TBox t') -> exists t, ty = YBox t).
      { clear. intros ty t'. destruct ty; cbn; try discriminate; intros H.
        - now destruct (find_item f x).
        - destruct (ty_sem f ty); [|discriminate]. cbn in H. now destruct (array_len f len cast).
        - now destruct (ty_sem f ty).
        - now destruct (ty_sem f ty).
        - eauto. }
      destruct a; cbn in H.
      + destruct (B _ _ H) as [t' K]. now apply (N t').
      + destruct ty; try discriminate. destruct ty; try discriminate. destruct s; try discriminate. destruct w; try discriminate.
        now destruct (array_len f len cast).
      + destruct ty; try discriminate. destruct ty; try discriminate. destruct s; try discriminate. now destruct w.
      + destruct ty; try discriminate. destruct (find_enum f x) as [e|]; [|discriminate]. cbn in H. unfold signed_sem in H.
        destruct (en_as_ref e); [|discriminate]. destruct (en_try_from e); [|discriminate].
        destruct (omap _ _); [|discriminate]. cbn in H. destruct (omap _ _); [|discriminate]. cbn in H. now destruct (nonempty_list _).
    - destruct a; cbn in H; try discriminate. destruct (ty_sem f ty) eqn:e; [|discriminate]. injection H as <-. exact e.
  Qed.
  Lemma enum_type_in x : is_enum_type cx (TsIdent x) = true -> exists y l, In (y, TdEnum x l) (type_defs ds).
  Proof.
    cbn. intros H. apply existsb_exists in H as ([y t] & Hy & E). cbn in E. destruct t as [|z l| |]; try discriminate.
    apply String.eqb_eq in E as ->. eauto.
  Qed.
End Tokens.

Lemma c50 cfg ds f E x1 y1 l1 i1 d1 x2 y2 l2 i2 d2 : remove_typedef cfg = true -> good_spec ds ->
  NoDup (map fst (type_defs ds)) -> generated cfg ds f E -> compiles f ->
  In (x1, TdStruct y1 l1) (type_defs ds) -> nth_error l1 i1 = Some d1 ->
  In (x2, TdStruct y2 l2) (type_defs ds) -> nth_error l2 i2 = Some d2 ->
  expands ds d1 d2 ->
  (enum_impl_std_trait cfg = true -> forall e n y l, d2 = DVariable (TsIdent e) n -> In (e, TdEnum y l) (type_defs ds) ->
     exists m, d1 = DVariable (TsIdent e) m) ->
  exists n1 ts1 a1 T1 n2 ts2 a2 T2,
    camel_of x1 n1 /\ lookup E n1 = Some (TStruct ts1) /\ nth_error ts1 i1 = Some (a1, T1) /\
    camel_of x2 n2 /\ lookup E n2 = Some (TStruct ts2) /\ nth_error ts2 i2 = Some (a2, T2) /\
    unboxed T1 = unboxed T2.
Proof.
  intros RM G ND [H HE] C I1 N1 I2 N2 EX STD. apply greturns_run in H as (n & H & _).
  destruct (field_of_struct H C HE I1 N1) as (nm1 & ts1 & a1 & T1 & fd1 & C1 & LK1 & NT1 & SF1 & FS1).
  destruct (field_of_struct H C HE I2 N2) as (nm2 & ts2 & a2 & T2 & fd2 & C2 & LK2 & NT2 & SF2 & FS2).
  exists nm1, ts1, a1, T1, nm2, ts2, a2, T2. do 6 (split; [easy|]).
  destruct (field_parts SF1) as (ty & op & TK1 & B1 & A1), (field_parts SF2) as (ty2 & op2 & TK2 & B2 & A2).
  pose proof (expands_token RM EX TK1) as TK. rewrite TK2 in TK. injection TK as -> ->.
  pose proof (type_unboxed RM TK1) as NB.
  apply (unboxed_sem NB B1) in FS1. apply (unboxed_sem NB B2) in FS2.
  assert (fd_attr fd1 = fd_attr fd2); [|congruence]. rewrite A1, A2. destruct op; try reflexivity.
  destruct (enum_impl_std_trait cfg) eqn:st; [|reflexivity]. cbn [andb] in *.
  assert (TDN : forall z t, first z (type_defs ds) (TdDecl t) -> is_enum_type (ctx cfg ds) (TsIdent z) = false).
  { intros z t F. destruct (is_enum_type _ _) eqn:e; [|easy]. exfalso. destruct (enum_type_in e) as (y & l & Hy).
    destruct (good_types G Hy) as (_ & [= <-]). apply first_in in F.
    assert (K : (z, TdDecl t) = (z, TdEnum z l)) by (apply NoDup_map_inj with (1 := ND); easy). discriminate. }
  assert (Z : (exists y, d2 = renamed y d1) \/ exists z x d, d1 = DVariable (TsIdent z) x /\ first z (type_defs ds) (TdDecl d)).
  { destruct EX as [d y|z x d d' F EX]; [left|right]; eauto. }
  destruct Z as [(y & ->)|(z & x & d & -> & F)]; [now destruct d1|].
  cbn [decl_type] in *. rewrite (TDN _ _ F). symmetry.
  destruct (match decl_type d2 with Some t => is_enum_type (ctx cfg ds) t | None => false end) eqn:e; [|easy]. exfalso.
  rewrite A2 in FS2. cbn [field_sem] in FS2. destruct ty; try discriminate.
  destruct d2 as [t y|t y v|t y o|y v|y o|y o|t y|]; cbn [decl_type] in *; try discriminate; cbn [convert_type_token] in TK2.
  - destruct t; try discriminate. destruct (enum_type_in e) as (w & l & Hw). destruct (good_types G Hw) as (_ & [= <-]).
    destruct (STD eq_refl _ _ _ _ eq_refl Hw) as [m [= <-]]. rewrite (TDN _ _ F) in e. discriminate.
  - apply gbind_ok in TK2 as ([ty' op'] & _ & TK2). apply gbind_ok in TK2 as (len & _ & TK2). discriminate.
  - apply gbind_ok in TK2 as ([ty' op'] & _ & TK2). destruct op'; discriminate.
  - apply gbind_ok in TK2 as (len & _ & TK2). discriminate.
  - apply gbind_ok in TK2 as ([ty' op'] & _ & TK2). discriminate.
Qed.
