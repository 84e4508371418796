(** Types of fields and arms: what the generator emits for a declaration and
    which Rust type that is. *)
From Verif Require Import Base RustTypes SpecXdr SpecTypes XdrFacts Nom NomFacts Ast ParserModel
  SpecGrammar SpecParse ConstProofs CaseModel SpecCase CaseProofs RustAst GenModel SpecGen GenFacts
  GenPanic SpecItems GenLemmas SpecXdl GenSem WireBase WireEnum.
Set Implicit Arguments.
Unset Strict Implicit.
Local Open Scope list_scope.

Section Tok.
  Variable ds : list definition.

  (** lengths *)
  Inductive len_tok : value -> vtoken -> Prop :=
  | lt_num c z : stands_for c z -> len_tok (VConst c) (TokNum z)
  | lt_id x : len_tok (VIdent x) (TokId x).

  Inductive tok : tyspec -> rty -> opaque_type -> Prop :=
  | to_int s : tok (TsInt s) (YInt s W32) OpNone
  | to_hyper s : tok (TsHyper s) (YInt s W64) OpNone
  | to_float : tok TsFloat YF32 OpNone
  | to_double : tok TsDouble YF64 OpNone
  | to_bool : tok TsBool YBool OpNone
  | to_char s : tok (TsChar s) (YInt s W8) OpNone
  | to_short s : tok (TsShort s) (YInt s W16) OpNone
  | to_item x t : first x (type_defs ds) t -> is_typedef t = false ->
      tok (TsIdent x) (YName (camel x)) OpNone
  | to_typedef x d ty op : first x (type_defs ds) (TdDecl d) -> dtok d ty op ->
      tok (TsIdent x) ty op
  with dtok : decl -> rty -> opaque_type -> Prop :=
  | do_variable t x ty op : tok t ty op -> dtok (DVariable t x) ty op
  | do_array t x v len ty op : tok t ty op -> len_tok v len ->
      dtok (DFixedArray t x v) (YArray ty len false) op
  | do_vararray_var t x max ty : tok t ty OpVariable -> dtok (DVariableArray t x max) YVecVarArray OpNone
  | do_vararray t x max ty op : tok t ty op -> op <> OpVariable ->
      dtok (DVariableArray t x max) (YVec ty) op
  | do_opaque x v len : len_tok v len ->
      dtok (DOpaqueFixed x v) (YArray (YInt false W8) len true) OpFixed
  | do_varopaque x max : dtok (DOpaqueVariable x max) (YVec (YInt false W8)) OpVariable
  | do_string x max : dtok (DString x max) YString OpNone
  | do_option t x ty op : tok t ty op -> dtok (DOption t x) (YOption ty) op.

  Scheme tok_mind := Minimality for tok Sort Prop
    with dtok_mind := Minimality for dtok Sort Prop.
  Combined Scheme tok_dtok_ind from tok_mind, dtok_mind.

  Variable cfg : config.
  Hypothesis G : good_spec ds.
  Hypothesis RM : remove_typedef cfg = true.
  Hypothesis IN : forall x t, In (x, t) (type_defs ds) -> is_typedef t = false -> type_name_ok x.
  Let cx := ctx cfg ds.

  Lemma type_good x t : In (x, t) (type_defs ds) -> good_name x.
  Proof. intros H. destruct (good_types G H) as [g e]. exact (good_type_name g e). Qed.

  Lemma item_tok n x t : first x (type_defs ds) t -> is_typedef t = false ->
    wp (resolve_type_token cx n x) (fun p => p = (YName (camel x), OpNone)).
  Proof.
    intros F T. destruct n; [easy|]. cbn [resolve_type_token]. change (cx_config cx) with cfg. rewrite RM.
    change (typedefs cx) with (type_defs ds). rewrite (proj2 (assoc_first _ _ _) F).
    pose proof (first_in F) as I.
    assert (W : wp (gbind (upper_camel_case_ident x) (fun name => GOk (YName name, OpNone)))
                   (fun p => p = (YName (camel x), OpNone))).
    { eapply wp_bind; [apply camel_wp; [now apply type_good with t|now apply (IN I)]|]. now intros ? <-. }
    now destruct t.
  Qed.

  Lemma tok_wp :
    (forall t k, tkind cfg ds t k -> forall n,
       wp (convert_primitive_token (resolve_type_token cx n) t) (fun p => tok t (fst p) (snd p))) /\
    (forall d k, dkind cfg ds d k -> forall n, good_decl d ->
       wp (convert_type_token (resolve_type_token cx n) d)
          (fun o => exists ty op, o = Some (ty, op) /\ dtok d ty op)).
  Proof.
    apply tkind_dkind_ind; intros; cbn [convert_primitive_token convert_type_token];
      try (cbn; constructor; fail);
      try (eapply wp_mono; [eapply item_tok; [eassumption|reflexivity]|];
           intros ? ->; cbn; eapply to_item; [eassumption|reflexivity]; fail).
    - destruct n as [|n]; [easy|]. cbn [resolve_type_token]. change (cx_config cx) with cfg. rewrite RM.
      change (typedefs cx) with (type_defs ds). rewrite (proj2 (assoc_first _ _ _) H).
      eapply wp_bind; [apply H1; now destruct (good_types G (first_in H))|]. intros ? (ty & op & -> & D). cbn. econstructor; eassumption.
    - destruct n as [|n]; [easy|]. cbn [resolve_type_token]. change (cx_config cx) with cfg. rewrite RM.
      change (typedefs cx) with (type_defs ds). rewrite (proj2 (assoc_first _ _ _) H).
      eapply wp_bind; [apply H1; now destruct (good_types G (first_in H))|]. intros ? (ty & op & -> & D). cbn. econstructor; eassumption.
    - eapply wp_bind; [apply H0|]. intros [ty op] D. cbn. exists ty, op. split; [easy|]. now constructor.
    - eapply wp_bind; [apply H0|]. intros [ty op] D. cbn [convert_value_token].
      rewrite (@constant_fits KUsize c z) by (try easy; try apply H3; cbn; lia). cbn.
      do 2 eexists. split; [reflexivity|]. constructor; [exact D|now constructor].
    - eapply wp_bind; [apply H0|]. intros [ty op] D. cbn in *.
      destruct op; do 2 eexists; (split; [reflexivity|]).
      + now constructor.
      + now constructor.
      + now apply do_vararray_var with ty.
    - destruct H as [(z & V & R) K]. destruct v as [c|y]; cbn [convert_value_token].
      + inversion V; subst. rewrite (@constant_fits KUsize c z) by (try easy; try apply H0; cbn; lia). cbn.
        do 2 eexists. split; [reflexivity|]. constructor. now constructor.
      + apply in_map_iff in K as ([y' v] & [= <-] & Hy). cbn in *.
        rewrite plain_ident by (pose proof (good_consts G) as GC; rewrite Forall_forall in GC; now apply (GC _ Hy)). cbn.
        do 2 eexists. split; [reflexivity|]. constructor. now constructor.
    - cbn. do 2 eexists. split; [reflexivity|]. constructor.
    - cbn. do 2 eexists. split; [reflexivity|]. constructor.
    - eapply wp_bind; [apply H0|]. intros [ty op] D. cbn.
      do 2 eexists. split; [reflexivity|]. now constructor.
  Qed.

  (** ** The Rust types *)
  Definition op_of (k : kind) : opaque_type :=
    match k with KFixed => OpFixed | KVar => OpVariable | _ => OpNone end.
  Definition attr_of (k : kind) : attr :=
    match k with KFixed => AFixed | KVar => AVariable | KStd => ASigned32 | _ => ANone end.

  Lemma op_kind :
    (forall t k, tkind cfg ds t k -> forall ty op, tok t ty op -> op = op_of k) /\
    (forall d k, dkind cfg ds d k -> forall ty op, dtok d ty op -> op = op_of k).
  Proof.
    apply tkind_dkind_ind; try (intros; match goal with H : tok _ _ _ |- _ => inversion H; subst end;
      try easy; match goal with A : first ?x _ _, B : first ?x _ _ |- _ => try discriminate (first_fun A B);
        pose proof (first_fun A B) as e; injection e as <- end; cbn in *; eauto; fail);
      try (intros; match goal with H : dtok _ _ _ |- _ => inversion H; subst end; cbn in *; eauto; fail).
    - intros x d k F _ IH _ ty op H. inversion H as [| | | | | | |? t F' T|? d' ? ? F' D]; subst.
      + rewrite <- (first_fun F F') in T. discriminate.
      + pose proof (first_fun F F') as e. injection e as <-. eauto.
    - intros t x max k _ IH Kk ty op H. inversion H as [| |? ? ? ty' Ht|? ? ? ty' op' Ht N| | | |]; subst; [easy|].
      rewrite (IH _ _ Ht) in *. now destruct Kk as [-> | ->].
  Qed.

  Variable f : file.
  Hypothesis FI : forall x t, first x (type_defs ds) t -> is_typedef t = false ->
    exists i, find_item f (camel x) = Some i /\
      match t with
      | TdEnum _ l => exists e, i = IEnum e /\ enum_facts cfg ds l e
      | _ => True
      end.
  Hypothesis FC : forall x z, In x (map fst (const_defs ds)) -> value_is ds (VIdent x) z ->
    exists w, const_of_name f x = Some (w, z).

  Lemma len_sem v len : length_ok ds v -> len_tok v len ->
    exists z, value_is ds v z /\ 0 <= z <= 32 /\ array_len f len true = Some (Z.to_nat z).
  Proof.
    intros [(z & V & R) K] L. exists z. split; [easy|]. split; [easy|]. unfold array_len.
    destruct L as [c z' S|x].
    - inversion V; subst. rewrite (stands_fun S H0). cbn. replace (0 <=? z) with true by lia.
      replace (z <=? 32) with true by lia. easy.
    - destruct (FC K V) as [w e]. cbn [guard]. rewrite e. cbn. replace (0 <=? z) with true by lia.
      replace (z <=? 32) with true by lia. easy.
  Qed.

  Lemma kind_sem :
    (forall t k, tkind cfg ds t k -> forall ty op, tok t ty op ->
       op = op_of k /\ exists T, field_sem f (attr_of k) ty = Some T) /\
    (forall d k, dkind cfg ds d k -> forall ty op, dtok d ty op ->
       op = op_of k /\ exists T, field_sem f (attr_of k) ty = Some T).
  Proof.
    assert (NI : forall x t, first x (type_defs ds) t -> is_typedef t = false -> forall ty op, tok (TsIdent x) ty op ->
      ty = YName (camel x) /\ op = OpNone).
    { intros x t F T ty op H. inversion H; subst; [easy|]. match goal with H1 : first x _ (TdDecl _) |- _ =>
        rewrite (first_fun F H1) in T; discriminate end. }
    assert (TD : forall x d, first x (type_defs ds) (TdDecl d) -> forall ty op, tok (TsIdent x) ty op -> dtok d ty op).
    { intros x d F ty op H. inversion H as [| | | | | | |? t F' T|? d' ? ? F' D]; subst.
      - rewrite <- (first_fun F F') in T. discriminate.
      - pose proof (first_fun F F') as e. injection e as ->. easy. }
    apply tkind_dkind_ind; try (intros; match goal with H : tok _ _ _ |- _ => inversion H; subst; split; [easy|]; eexists; reflexivity end).
    - intros x y l F std ty op H. destruct (NI _ _ F eq_refl _ _ H) as [-> ->]. split; [easy|].
      destruct (FI F eq_refl) as (i & e & _). cbn. rewrite e. eauto.
    - intros x y l F std ty op H. destruct (NI _ _ F eq_refl _ _ H) as [-> ->]. split; [easy|].
      destruct (FI F eq_refl) as (i & e & en & -> & _ & T & _ & S & _). destruct (proj1 S std) as [T' ET]. cbn.
      unfold find_enum. rewrite e. cbn. eauto.
    - intros x y l F std _ ty op H. destruct (NI _ _ F eq_refl _ _ H) as [-> ->]. split; [easy|].
      destruct (FI F eq_refl) as (i & e & _). cbn. rewrite e. eauto.
    - intros x y l F ty op H. destruct (NI _ _ F eq_refl _ _ H) as [-> ->]. split; [easy|].
      destruct (FI F eq_refl) as (i & e & _). cbn. rewrite e. eauto.
    - intros x y u F ty op H. destruct (NI _ _ F eq_refl _ _ H) as [-> ->]. split; [easy|].
      destruct (FI F eq_refl) as (i & e & _). cbn. rewrite e. eauto.
    - intros x d k F _ IH _ ty op H. apply IH. now apply (TD _ _ F).
    - intros x d F _ IH ty op H. apply IH. now apply (TD _ _ F).
    - intros t x k _ IH ty op H. inversion H; subst. now apply IH.
    - intros t x c z _ IH S R ty op H. inversion H as [|? ? ? len ty' op' Ht L| | | | | |]; subst.
      destruct (IH _ _ Ht) as [-> [T ET]]. split; [easy|]. cbn in *. rewrite ET. cbn.
      inversion L as [? z' S'|]; subst. rewrite (stands_fun S' S). cbn.
      replace (0 <=? z) with true by lia. replace (z <=? 32) with true by lia. cbn. eauto.
    - intros t x max k _ IH K ty op H. inversion H as [| |? ? ? ty' Ht|? ? ? ty' op' Ht N| | | |]; subst.
      + split; [easy|]. cbn. eauto.
      + destruct (IH _ _ Ht) as [-> [T ET]]. destruct K as [-> | ->]; [|easy]. split; [easy|]. cbn in *.
        rewrite ET. cbn. eauto.
    - intros x v L ty op H. inversion H; subst. split; [easy|]. destruct (len_sem L H4) as (z & _ & _ & E). cbn [attr_of field_sem].
      rewrite E. cbn. eauto.
    - intros x max ty op H. inversion H; subst. split; [easy|]. cbn. eauto.
    - intros x max ty op H. inversion H; subst. split; [easy|]. cbn. eauto.
    - intros t x _ IH ty op H. inversion H as [| | | | | | |? ? ty' op' Ht]; subst.
      destruct (IH _ _ Ht) as [-> [T ET]]. split; [easy|]. cbn in *. rewrite ET. cbn. eauto.
  Qed.
End Tok.
