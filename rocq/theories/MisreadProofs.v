(** A program generated from the old version of a protocol that decodes a
    message of the new version obtains what was meant. *)
From Verif Require Import Base SpecUtf8 RustTypes SerModel DeModel SpecXdr SpecTypes SpecDecode XdrFacts EncProofs DecProofs CodecProofs CodecLemmas Nom Ast ParserModel
  SpecGrammar SpecParse ConstProofs CaseModel SpecCase CaseProofs RustAst GenModel SpecGen GenFacts GenPanic SpecItems GenLemmas SpecXdl GenSem SpecWire SpecEmit SpecConv
  EmitProofs WireBase WireEnum WireTok WireStruct WireUnion WireFile WireSem WireMain WireLemmas WireConv WireBack WireEnums MaxDefs ConvLemmas SpecUpgrade UpgradeProofs EmitRun StuckProofs.
Set Implicit Arguments.
Unset Strict Implicit.
Local Open Scope list_scope.

(** ** Words *)
Lemma rfc_number d z w : number_of d z -> rfc d w -> length w = 4%nat.
Proof. intros [->|[->| ->]] R; inversion R as [? ? S|? ? S|? ? S| | | | | | | | | | | | | |]; subst; apply S. Qed.
Lemma app_word {A} (a b c d : list A) : length a = length c -> a ++ b = c ++ d -> a = c /\ b = d.
Proof.
  revert c. induction a as [|x a IH]; intros [|y c] L H; try discriminate; [easy|]. injection H as -> H. injection L as L.
  now destruct (IH c L H) as [-> ->].
Qed.
Lemma unsigned_signed z w : unsigned 4 z w -> z < 2 ^ 31 -> signed 4 z w.
Proof. intros [L V] B. pose proof (nval_range w). split; [easy|]. left. change (8 * Z.of_nat 4 - 1) with 31. lia. Qed.
Lemma unsigned_val k z z' w : unsigned k z w -> unsigned k z' w -> z = z'.
Proof. intros [_ <-] [_ <-]. reflexivity. Qed.

(** discriminants of one type with the same encoding *)
Lemma disc_det ds dm :
  (forall t x, xtype ds dm t x -> forall y zx zy w, xtype ds dm t y -> number_of x zx -> number_of y zy -> rfc x w -> rfc y w -> x = y) /\
  (forall d x, xdecl ds dm d x -> forall y zx zy w, xdecl ds dm d y -> number_of x zx -> number_of y zy -> rfc x w -> rfc y w -> x = y) /\
  (forall t xs, xall ds dm t xs -> True) /\ (forall l xs, xfields ds dm l xs -> True).
Proof.
  assert (NN : forall x zx, number_of x zx -> match x with XInt _ | XUInt _ | XEnum _ => True | _ => False end).
  { intros x zx [->|[->| ->]]; exact Logic.I. }
  assert (SS : forall z z' w, signed 4 z w -> signed 4 z' w -> z = z') by (intros z z' w; apply signed_det_val; lia).
  assert (W : forall x y w, rfc x w -> rfc y w -> match x, y with XInt a, XInt b => a = b | XUInt a, XUInt b => a = b | XEnum a, XEnum b => a = b | _, _ => True end).
  { intros x y w Rx Ry. destruct x, y; try exact Logic.I; inversion Rx; inversion Ry; subst; eauto using unsigned_val. }
  apply xtype_xdecl_ind; try (intros; exact Logic.I); try (intros; exfalso; match goal with H : number_of _ _ |- _ => exact (NN _ _ H) end).
  1-7: intros; match goal with H : xtype _ _ _ ?y |- _ = ?y => inversion H; subst end;
    try (exfalso; match goal with H : number_of _ _ |- _ => exact (NN _ _ H) end);
    match goal with Rx : rfc ?x ?w, Ry : rfc ?y ?w |- _ = _ => pose proof (W x y w Rx Ry) as EQ; cbn in EQ end; now rewrite EQ.
  - intros l a z I V B y zx zy w X NX NY RX RY. inversion X; subst. pose proof (W _ _ _ RX RY) as EQ. cbn in EQ. congruence.
  - intros n d x F _ H y zx zy w X. inversion X as [| | | | | | | | | | | | | | |? d' ? F' X'|? ? ? ? F'|? ? ? ? F'|? ? ? ? F']; subst; pose proof (first_fun F F') as EQ; try discriminate.
    injection EQ as <-. now apply H.
  - intros n y0 l x F _ H y zx zy w X. inversion X as [| | | | | | | | | | | | | | |? d' ? F'|? ? ? ? F' X'|? ? ? ? F'|? ? ? ? F']; subst; pose proof (first_fun F F') as EQ; try discriminate.
    injection EQ as <- <-. now apply H.
  - intros n y0 l x F _ H y zx zy w X. inversion X as [| | | | | | | | | | | | | | |? d' ? F'|? ? ? ? F'|? ? ? ? F' X'|? ? ? ? F']; subst; pose proof (first_fun F F') as EQ; try discriminate.
    injection EQ as <- <-. now apply H.
  - intros n y0 l x F _ H y zx zy w X. inversion X as [| | | | | | | | | | | | | | |? d' ? F'|? ? ? ? F'|? ? ? ? F'|? ? ? ? F' X']; subst; pose proof (first_fun F F') as EQ; try discriminate.
    injection EQ as <- <-. now apply H.
  - intros t y x _ H y0 zx zy w X. inversion X; subst. now apply H.
Qed.

(** one arm for a number *)
Definition one_arm (ds : list definition) (u : ubody) : Prop :=
  match u with
  | UBody _ specs _ => forall vs1 arm1 v1 vs2 arm2 v2 z, In (CaseSpec vs1 arm1) specs -> In v1 vs1 -> label_is ds v1 z ->
      In (CaseSpec vs2 arm2) specs -> In v2 vs2 -> label_is ds v2 z -> arm1 = arm2
  end.
Lemma supported_one_arm cfg ds u : union_supported cfg ds u -> one_arm ds u.
Proof.
  destruct u as [c specs dflt]. intros (_ & (t & y & -> & D) & _) vs1 arm1 v1 vs2 arm2 v2 z I1 V1 L1 I2 V2 L2.
  assert (IN1 : In v1 (labels specs)) by (unfold labels; apply in_flat_map; now exists (CaseSpec vs1 arm1)).
  assert (IN2 : In v2 (labels specs)) by (unfold labels; apply in_flat_map; now exists (CaseSpec vs2 arm2)).
  assert (H : NoDup (labels specs) /\ v1 = v2).
  { assert (NI : forall v w : value, (forall v, In v (labels specs) -> exists x z, v = VIdent x /\ x <> "FALSE"%string /\ x <> "TRUE"%string /\ value_is ds v z) ->
      forall v, In v (labels specs) -> label_is ds v z -> value_is ds v z).
    { intros _ _ H v Hv L. destruct (H v Hv) as (x & z' & -> & N1 & N2 & _). destruct L as [[L _]|[[L _]|(_ & _ & L)]]; [congruence|congruence|easy]. }
    unfold disc_ok in D. destruct t; try easy.
    - destruct D as (N & V & INJ & _). split; [easy|]. apply (INJ _ _ z); try easy; apply NI; try easy; intros v Hv; destruct (V v Hv) as (x & z' & ? & ? & ? & ? & _); eauto 8.
    - destruct D as (N & V & _). split; [easy|]. destruct (V _ IN1) as [-> | ->], (V _ IN2) as [-> | ->]; try easy;
        destruct L1 as [[? ->]|[[? ->]|(? & ? & _)]], L2 as [[? ?]|[[? ?]|(? & ? & _)]]; try congruence; discriminate.
    - destruct D as (N & V & INJ & _). split; [easy|]. apply (INJ _ _ z); try easy; apply NI; try easy; intros v Hv; destruct (V v Hv) as (xx & z' & ? & ? & ? & ? & _); eauto 8. }
  destruct H as [N ->]. assert (EQ : CaseSpec vs1 arm1 = CaseSpec vs2 arm2); [|congruence].
  unfold labels in N. eapply (@flat_map_unique _ _ _ specs _ _ v2 N); cbn; try easy.
Qed.

Section Misread.
  Variables (cfg : config) (ds : list definition).
  Hypothesis SD : supported_defs cfg ds.
  Variable f : file.
  Hypothesis GN : greturns (fun n => gen_code n cfg ds) (GOk f).
  Hypothesis FF : file_facts cfg ds f.
  Variable E : env.
  Hypothesis HE : file_env f = Some E.
  Hypothesis NM : map def_without_max ds = ds.
  Hypothesis EX : exact_defs cfg ds.
  Let dm := union_impl_union cfg.
  Variables (new : list definition) (R : string -> string -> Prop) (dm' : bool).
  Hypothesis U : upgrade ds new R.
  Hypothesis NU : forall x y u, first x (type_defs new) (TdUnion y u) -> one_arm new u.
  Hypothesis NI : enum_impl_indexer cfg = true -> no_new_members ds new R.
  Let gd := grown ds new R.
  Let gs := grown_spec ds new R.

  Definition Ht (t : tyspec) (x : xv) : Prop := forall k ty T v b bs r r2, tkind cfg ds t k -> tok ds t ty (op_of k) ->
    field_sem f (attr_of k) ty = Some T -> accepts E T v b -> rfc x bs -> b ++ r = bs ++ r2 -> xtype ds dm t x.
  Definition Hd (d : decl) (x : xv) : Prop := without_max d = d -> (d = DVoid -> xdecl ds dm d x) /\
    forall k ty T v b bs r r2, dkind cfg ds d k -> dtok ds d ty (op_of k) ->
    field_sem f (attr_of k) ty = Some T -> accepts E T v b -> rfc x bs -> b ++ r = bs ++ r2 -> xdecl ds dm d x.

  (** ** What is read is what was written *)
  Lemma align_t t x k ty T v b bs r r2 : xtype ds dm t x -> tkind cfg ds t k -> tok ds t ty (op_of k) ->
    field_sem f (attr_of k) ty = Some T -> accepts E T v b -> rfc x bs -> b ++ r = bs ++ r2 ->
    b = bs /\ r = r2 /\ exists y, denotes true E T v y /\ same_wire x y.
  Proof.
    intros X K TK FS A RX EQ. destruct (proj1 (proj1 (values SD FF HE) _ _ X) k ty T K TK FS) as (v' & y & D & W).
    pose proof (denotes_accepts D (proj1 (W _) RX)) as A'. destruct (@accepts_det E T v v' b bs r r2 A A' EQ) as [-> ->].
    split; [now apply app_inv_tail in EQ|eauto].
  Qed.
  Lemma align_d d x k ty T v b bs r r2 : xdecl ds dm d x -> dkind cfg ds d k -> dtok ds d ty (op_of k) ->
    field_sem f (attr_of k) ty = Some T -> accepts E T v b -> rfc x bs -> b ++ r = bs ++ r2 -> b = bs /\ r = r2.
  Proof.
    intros X K TK FS A RX EQ. destruct (proj2 (proj1 (proj2 (values SD FF HE)) _ _ X) k ty T K TK FS) as (v' & y & D & W).
    pose proof (denotes_accepts D (proj1 (W _) RX)) as A'. destruct (@accepts_det E T v v' b bs r r2 A A' EQ) as [-> ->].
    now apply app_inv_tail in EQ.
  Qed.

  Lemma all_hit t k ty T T0 xs : tkind cfg ds t k -> tok ds t ty (op_of k) -> field_sem f (attr_of k) ty = Some T ->
    (forall v b, accepts E T0 v b -> exists v', accepts E T v' b) -> Forall (Ht t) xs ->
    forall vs b bs r r2, accepts_all E (repeat T0 (length xs)) vs b -> rfcs xs bs -> b ++ r = bs ++ r2 -> xall ds dm t xs.
  Proof.
    intros K TK FS AC. induction 1 as [|x xs H HS IH]; intros vs b bs r r2 A RX EQ; [constructor|]. cbn in A.
    inversion A as [|? ? v vs1 b1 b2 A1 A2]; subst. inversion RX as [|? ? c1 c2 R1 R2]; subst. rewrite <- !app_assoc in EQ.
    destruct (AC _ _ A1) as [v' A1']. pose proof (H k ty T v' b1 c1 _ _ K TK FS A1' R1 EQ) as X.
    destruct (align_t X K TK FS A1' R1 EQ) as (_ & EQ2 & _). constructor; [easy|]. now apply (IH vs1 b2 c2 r r2).
  Qed.

  (** ** Arms and fields *)
  Lemma var_accepts v b : accepts E TVariableArray v b -> exists v', accepts E TOpaqueVar v' b.
  Proof.
    intros A. inversion A as [ | | | | | | | | | | | | | | | | | |? vs ? AA| | | | | | | | | | | | ]; subst. cbn in AA.
    inversion AA as [|? ? v1 vs1 b1 b2 A1 A2]; subst. inversion A2; subst. rewrite app_nil_r. eauto.
  Qed.
  Lemma arm_hit d Ts vs a b bs r r2 : without_max d = d -> arm_types cfg ds f d Ts -> Hd d a -> accepts_all E Ts vs b -> rfc a bs -> b ++ r = bs ++ r2 ->
    xdecl ds dm d a.
  Proof.
    intros ND [[-> ->]|(k & ty & K & TK & H)] HD A RA EQ; destruct (HD ND) as [HV HH]; [now apply HV|].
    destruct H as [(KK & T' & ET & ->)|[-> ->]]; inversion A as [|? ? v vs1 b1 b2 A1 A2]; subst; inversion A2; subst; rewrite app_nil_r in EQ.
    - assert (FS : field_sem f (attr_of k) ty = Some T') by now destruct KK as [->| ->]. now apply (HH k ty T' v b1 bs r r2).
    - destruct (dkind_field SD FF K TK) as [T' ET]. pose proof (var_field ET) as E'. subst T'.
      destruct (var_accepts A1) as [v' A1']. now apply (HH KVar ty TOpaqueVar v' b1 bs r r2).
  Qed.
  Lemma fields_hit x l fds : Forall2 (field_facts cfg ds x) l fds -> Forall (fun d => without_max d = d) l ->
    forall ts xs vs b bs r r2, Forall2 (fun fd (q : string * ty) => field_sem f (fd_attr fd) (fd_ty fd) = Some (snd q)) fds ts ->
    Forall2 Hd l xs -> accepts_all E (map snd ts) vs b -> rfcs xs bs -> b ++ r = bs ++ r2 -> xfields ds dm l xs.
  Proof.
    induction 1 as [|d fd l fds FD F IH]; intros ND ts xs vs b bs r r2 S H A RX EQ; inversion S as [|? q ? ts1 S1 S2]; subst;
      inversion H as [|? x1 ? xs1 H1 H2]; subst; [constructor|]. cbn in A.
    inversion A as [|? ? v vs1 b1 b2 A1 A2]; subst. inversion RX as [|? ? c1 c2 R1 R2]; subst. rewrite <- !app_assoc in EQ.
    inversion ND as [|? ? ND1 ND2]; subst.
    assert (X : xdecl ds dm d x1 /\ b2 ++ r = c2 ++ r2).
    { destruct FD as (k & nm & ty & K & _ & _ & T & _ & EA & FT).
      assert (Q : forall T', field_sem f (attr_of k) ty = Some T' -> accepts E T' v b1 -> xdecl ds dm d x1 /\ b2 ++ r = c2 ++ r2).
      { intros T' FS A'. pose proof (proj2 (H1 ND1) k ty T' v b1 c1 _ _ K T FS A' R1 EQ) as X. split; [easy|].
        now destruct (align_d X K T FS A' R1 EQ) as [_ EQ']. }
      destruct FT as [[_ ET]|(ET & _ & ->)]; rewrite EA, ET in S1; [now apply (Q (snd q))|].
      cbn in S1. destruct (ty_sem f ty) as [T'|] eqn:E'; [|discriminate]. injection S1 as S1. rewrite <- S1 in A1.
      inversion A1; subst. now apply (Q T'). }
    destruct X as [X EQ2]. constructor; [easy|]. now apply (IH ND2 ts1 xs1 vs1 b2 c2 r r2).
  Qed.

  (** ** Enums *)
  Lemma one_scope_ds : one_scope ds.
  Proof.
    intros x H1 H2. pose proof (sd_scope SD) as N. apply in_split in H1 as (l1 & l2 & EQ). rewrite EQ, <- app_assoc in N. apply NoDup_remove_2 in N.
    apply N. apply in_or_app. right. apply in_or_app. now right.
  Qed.
  Lemma made_enum x y l : first x (type_defs ds) (TdEnum y l) ->
    exists e, find_item f (camel x) = Some (IEnum e) /\ enum_made cfg ds x l e /\ enum_facts cfg ds l e.
  Proof.
    intros F. destruct (WireEnums.enum_of (sd_good SD) one_scope_ds GN (first_in F)) as (n & e & HI & _ & EM & _).
    destruct (find_enum_facts SD FF F eq_refl) as (i & FI & e' & -> & EF). exists e'. split; [easy|]. split; [|easy].
    assert (IEnum e = IEnum e') as EQ; [|injection EQ as <-; easy].
    destruct (file_compiles SD FF) as (N & _). apply (NoDup_map_inj (f := GenSem.item_name)) with (1 := N); try easy.
    - unfold find_item in FI. now apply find_some in FI.
    - unfold find_item in FI. apply find_some in FI as [_ FI]. apply String.eqb_eq in FI. rewrite FI. destruct EM as (ix & _ & H). cbv zeta in H. apply H.
  Qed.
  Lemma member_dec l z : (forall a, In a l -> exists z, value_is ds (as_value a) z) ->
    (exists a, In a l /\ value_is ds (as_value a) z) \/ (forall a, In a l -> ~ value_is ds (as_value a) z).
  Proof.
    induction l as [|a l IH]; intros H; [now right|]. destruct IH as [(b & Hb & Vb)|N]; [intros b Hb; apply H; now right|left; exists b; split; [now right|easy]|].
    destruct (H a (or_introl eq_refl)) as [za Va]. destruct (Z.eq_dec za z) as [->|NE].
    - left. exists a. split; [now left|easy].
    - right. intros b [<-|Hb]; [|now apply N]. intros V. now apply NE, value_is_fun with (1 := Va).
  Qed.
  Lemma enum_hit x y l k ty T v b bs r r2 z : first x (type_defs ds) (TdEnum y l) ->
    (enum_impl_indexer cfg = true -> exists a, In a l /\ value_is ds (as_value a) z) ->
    tkind cfg ds (TsIdent x) k -> tok ds (TsIdent x) ty (op_of k) -> field_sem f (attr_of k) ty = Some T ->
    accepts E T v b -> rfc (XEnum z) bs -> b ++ r = bs ++ r2 -> xtype ds dm (TsIdent x) (XEnum z).
  Proof.
    intros F IX K TK FS A RX EQ. pose proof (sd_items SD (first_in F)) as OK. pose proof (EX (first_in F)) as XE. cbn in OK, XE.
    assert (VALS : forall a, In a l -> exists z, value_is ds (as_value a) z).
    { intros a Ha. destruct OK as (_ & _ & _ & H & _). destruct (H a Ha) as (z' & V & _). eauto. }
    inversion RX as [| |? ? SG| | | | | | | | | | | | | |]; subst.
    assert (HM : exists a, In a l /\ value_is ds (as_value a) z).
    { destruct (enum_impl_indexer cfg) eqn:ix; [now apply IX|]. clear IX. pose proof (item_named F eq_refl TK) as ->.
      destruct (made_enum F) as (e & FI & EM & EF).
      assert (KK : k = KStd \/ attr_of k = ANone /\ (enum_impl_std_trait cfg = false \/ dense ds l)).
      { inversion K as [| | | | | | |? ? ? F1 M|? ? ? F1 M|? ? ? F1 M DN|? ? ? F1|? ? ? F1|? ? ? F1|? ? F1]; subst; try discriminate (first_fun F F1).
        - right. split; [easy|now left].
        - now left.
        - right. split; [easy|]. right. pose proof (first_fun F F1) as E1. now injection E1 as <- <-. }
      destruct KK as [->|[AN M]].
      - cbn in FS. unfold find_enum in FS. rewrite FI in FS. cbn in FS.
        destruct (member_dec z VALS) as [HM|N]; [easy|exfalso]. destruct (enum_made_try z EM FS) as (zs & arms & -> & H). specialize (H N).
        inversion A as [ | | | | | | | | | | | | | | | | | | | | | | | | | |? ? ? i z' w SG' WD| | | | ]; subst.
        destruct (app_word (eq_trans (proj1 SG') (eq_sym (proj1 SG))) EQ) as [-> _].
        assert (z' = z) by (apply (@signed_det_val 4 z' z bs); [lia|easy|easy]). subst z'. rewrite H in WD. discriminate.
      - rewrite AN in FS. cbn in FS. rewrite FI in FS. injection FS as <-. destruct (env_lookup HE FI) as (T' & IT & LK).
        inversion A as [ | | | | | | | | | | | | | | | | | | | | | | | | | | | | | |? T2 ? ? LK' A']; subst. rewrite LK in LK'. injection LK' as <-. cbn in IT.
        pose proof EF as (_ & T0 & ES' & _ & EV). rewrite IT in ES'. injection ES' as <-.
        assert (TE : T' = TEnum (map (fun x => (x, VUnit)) (enum_names e))).
        { unfold enum_sem in IT. apply guard_some in IT as [_ IT]. destruct EM as (ixs & _ & H). cbv zeta in H. destruct H as (_ & _ & _ & _ & _ & _ & D & I). rewrite ix in D, I. rewrite D, I in IT.
          destruct (en_as_ref e); [|now injection IT as <-]. destruct (signed_sem e); [now injection IT as <-|discriminate]. }
        assert (SH : forall v w, accepts E T' v w -> exists i, v = RVariant i [] /\ (i < length (enum_names e))%nat /\ unsigned 4 (Z.of_nat i) w).
        { intros v0 w0 A0. rewrite TE in A0.
          inversion A0 as [ | | | | | | | | | | | | | | | | | | | |? i ? ? UW _ HN|? i ? ? ? ? ? UW _ HN|? i ? ? ? ? ? UW _ HN|? i ? ? ? ? ? UW _ HN| | | | | | | ]; subst;
            rewrite nth_error_map in HN; destruct (nth_error (enum_names e) i) eqn:Ei; try discriminate.
          exists i. split; [easy|]. split; [|easy]. apply nth_error_Some. congruence. }
        destruct (SH _ _ A') as (i & -> & Li & UW). destruct (variant_member OK XE EF Li) as (a & za & Ha & V & P).
        destruct (EV E a za Ha V) as (j & Pj & D1 & _). rewrite P in Pj. injection Pj as <-. destruct (D1 M) as (yv & D & W).
        destruct (to_bytes_rfc D) as (w & Rw & _). pose proof (denotes_accepts D Rw) as Aw. destruct (SH _ _ Aw) as (i' & EI & _ & UW'). injection EI as <-.
        destruct (app_word (eq_trans (proj1 UW) (eq_sym (proj1 SG))) EQ) as [-> _].
        rewrite <- (unsigned_det UW UW') in Rw. apply W in Rw. inversion Rw as [| |? ? SG'| | | | | | | | | | | | | |]; subst.
        assert (za = z) by (apply (@signed_det_val 4 za z bs); [lia|easy|easy]). subst za. eauto. }
    destruct HM as (a & Ha & V). eapply xt_name_enum; [exact F|]. destruct OK as (_ & _ & _ & H & _). destruct (H a Ha) as (z' & V' & RG & _).
    rewrite (value_is_fun V V') in *. now apply xt_enum with a.
  Qed.

  (** ** Unions *)
  Lemma assocZ_in {A} z (l : list (Z * A)) n : assoc Z.eqb z l = Some n -> In (z, n) l.
  Proof. induction l as [|[y m] l IH]; cbn; [discriminate|]. destruct (Z.eqb_spec z y) as [->|]; [intros [= ->]; now left|right; auto]. Qed.
  Section Union.
    Variables (t : tyspec) (nm : string) (specs : list cspec) (dflt : option decl) (cty : rty).
    Variables (cs : list (ent * variant)) (vs dvs : list variant) (u : union_item).
    Hypothesis UF : union_facts cfg ds t specs dflt cty cs vs dvs u.
    Hypothesis DO : disc_ok cfg ds t (labels specs).
    Hypothesis UX : union_exact cfg ds (UBody (DVariable t nm) specs dflt).
    Hypothesis NC : forall ls d, In (CaseSpec ls d) specs -> without_max d = d.
    Hypothesis ND : forall d, dflt = Some d -> without_max d = d.
    Let ut := TsUnion (UBody (DVariable t nm) specs dflt).
    Variables (t' : tyspec) (nm' : string) (specs' : list cspec) (dflt' : option decl).
    Hypothesis GU : grown_union ds new R (UBody (DVariable t nm) specs dflt) (UBody (DVariable t' nm') specs' dflt').
    Hypothesis OA : one_arm new (UBody (DVariable t' nm') specs' dflt').
    Variables (d a : xv) (z : Z) (arm' : decl).
    Hypothesis XD : xtype new dm' t' d.
    Hypothesis NZ : number_of d z.
    Hypothesis SEL : (exists vs' v', In (CaseSpec vs' arm') specs' /\ In v' vs' /\ label_is new v' z) \/
      dflt' = Some arm' /\ forall v, In v (labels specs') -> ~ label_is new v z.
    Hypothesis HA : forall arm, gd arm arm' -> Hd arm a.
    Hypothesis HDt : Ht t d.

    Lemma same_arm c : In c cs -> ez (fst c) = z -> gd (ed (fst c)) arm'.
    Proof.
      intros Hc EZ. destruct (uf_cases UF) as [p CF]. destruct (cf_cases CF Hc) as [(ls & H1 & H2 & H3) _]. rewrite EZ in H3.
      destruct GU as (_ & GC & _). destruct (GC _ _ _ _ H1 H2 H3) as (vs1 & arm1 & v1 & I1 & V1 & L1 & G1).
      destruct SEL as [(vs2 & v2 & I2 & V2 & L2)|[_ N]].
      - now rewrite <- (OA I1 V1 L1 I2 V2 L2).
      - exfalso. apply (N v1); [|easy]. unfold labels. apply in_flat_map. now exists (CaseSpec vs1 arm1).
    Qed.
    Lemma disc_grown : gs t t'.
    Proof. destruct GU as ((t0 & t1 & x0 & x1 & [= <- <-] & [= <- <-] & G) & _). exact G. Qed.
    Lemma known_disc c w : In c cs -> dm = false -> rfc d w -> signed 4 (as_i32 (ez (fst c))) w -> xtype ds dm t d /\ ez (fst c) = z.
    Proof.
      intros Hc M RW SW. destruct (case_disc UF UX Hc) as (d0 & X0 & N0).
      assert (R0 : rfc d0 w) by (apply (disc_wire X0 N0 (nums_small UF Hc)); now constructor).
      assert (d0 = d) as ->.
      { assert (X1 : xtype new dm' t' d0).
        { apply (proj1 (@upgrade_values ds new R dm' U dm ltac:(congruence)) _ _ X0). exact disc_grown. }
        exact (proj1 (disc_det new dm') _ _ X1 _ _ _ _ XD N0 NZ R0 RW). }
      split; [exact X0|exact (number_fun N0 NZ)].
    Qed.
    Lemma case_arm_max c : In c cs -> without_max (ed (fst c)) = ed (fst c).
    Proof. intros Hc. exact (case_arm UF NC Hc). Qed.

    Lemma serde_hit T v b bs r r2 : union_complement_index cfg = true -> union_sem f u = Some T -> accepts E T v b ->
      rfc (XUnion d a) bs -> b ++ r = bs ++ r2 -> xtype ds dm ut (XUnion d a).
    Proof.
      intros ci ET A RX EQ. pose proof (complement_not_union ci) as M2.
      destruct (serde_means SD FF UF ci) as (vss & ET' & FV). rewrite ET in ET'. injection ET' as ->.
      inversion RX as [| | | | | | | | | | | | |? ? b1 b2 R1 R2| | |]; subst. rewrite <- app_assoc in EQ.
      assert (CASE : forall i name sh, nth_error vss i = Some (name, sh) -> exists c, In c cs /\ ez (fst c) = Z.of_nat i /\
        ((sh = VUnit /\ ed (fst c) = DVoid) \/ exists k ty T', dkind cfg ds (ed (fst c)) k /\ dtok ds (ed (fst c)) ty (op_of k) /\
           field_sem f (attr_of k) ty = Some T' /\ sh = VNewtype T')).
      { intros i name sh HN. destruct (Forall2_nth_r FV HN) as (va & HV & EV). destruct (serde_case UF DO UX ci HV) as (c & Hc & -> & EZ).
        exists c. split; [easy|]. split; [easy|].
        destruct (case_in UF Hc) as [_ (EN & tys & AF & ETY)]. unfold serde_variant_sem in EV. rewrite EN, ETY in EV.
        unfold disc_tys in EV. rewrite M2 in EV. cbn [token_id obind app] in EV.
        destruct (arm_serde SD FF ci AF) as [(-> & Ea & Ed)|(ty & T & -> & FT & [[_ Z]|(k & ty' & T' & K & TK & FT' & Z)])].
        + rewrite Ea in EV. injection EV as _ <-. now left.
        + discriminate.
        + rewrite FT in EV. injection EV as _ <-. right. exists k, ty', T'. easy. }
      assert (WORD : forall i w rest c, In c cs -> ez (fst c) = Z.of_nat i -> unsigned 4 (Z.of_nat i) w -> Z.of_nat i < 2 ^ 31 -> w ++ rest = b1 ++ b2 ++ r2 ->
        rest = b2 ++ r2 /\ xtype ds dm t d /\ number_of d (ez (fst c)) /\ Hd (ed (fst c)) a).
      { intros i w rest c Hc EZ UW LI EQ'. destruct (app_word (eq_trans (proj1 UW) (eq_sym (rfc_number NZ R1))) EQ') as [-> ->]. split; [easy|].
        destruct (@known_disc c b1 Hc M2 R1) as [X EZ'].
        - rewrite EZ. replace (as_i32 (Z.of_nat i)) with (Z.of_nat i); [now apply unsigned_signed|]. unfold as_i32. destruct (Z.ltb_spec (Z.of_nat i) (2 ^ 31)); lia.
        - split; [easy|]. split; [now rewrite EZ'|]. apply HA. now apply same_arm. }
      inversion A as [ | | | | | | | | | | | | | | | | | | | |? i ? w UW LI HN|? i ? t1 v0 w bs0 UW LI HN A1|? i ? ? ? ? ? UW _ HN|? i ? ? ? ? ? UW _ HN| | | | | | | ]; subst;
        destruct (CASE _ _ _ HN) as (c & Hc & EZ & [[Es Ed]|(k & ty & T' & K & TK & FS & Es)]); try discriminate.
      - destruct (WORD _ _ _ c Hc EZ UW LI EQ) as (_ & X & N & H). apply (case_xv nm UF Hc X N). now apply (proj1 (H (case_arm_max Hc))).
      - injection Es as ->. rewrite <- app_assoc in EQ. destruct (WORD _ _ _ c Hc EZ UW LI EQ) as (EQ2 & X & N & H). apply (case_xv nm UF Hc X N).
        now apply (proj2 (H (case_arm_max Hc)) k ty T' v0 bs0 b2 r r2).
    Qed.

    Lemma indexer_hit T v b bs r r2 : union_impl_indexer cfg = true -> union_sem f u = Some T -> accepts E T v b ->
      rfc (XUnion d a) bs -> b ++ r = bs ++ r2 -> xtype ds dm ut (XUnion d a).
    Proof.
      intros M1 ET A RX EQ. assert (M2 : union_impl_union cfg = false) by (destruct (sd_union_mode SD); congruence).
      assert (ci : union_complement_index cfg = false) by (unfold union_complement_index; now rewrite M1).
      destruct (indexer_means SD FF UF M1) as (vss & ET' & NV & FV). rewrite ET in ET'. injection ET' as ->.
      inversion RX as [| | | | | | | | | | | | |? ? b1 b2 R1 R2| | |]; subst. rewrite <- app_assoc in EQ.
      assert (DN : match dflt with Some _ => DVal "Default"%string | None => DErr end = DErr) by (destruct UX as (_ & H & _); now rewrite (H M2)).
      inversion A as [ | | | | | | | | | | | | | | | | | | | | | | | | | | |? ? ? ? i z0 w name ts vv bb SW WD HN _ _ AA| | | ]; subst.
      rewrite <- app_assoc in EQ. destruct (app_word (eq_trans (proj1 SW) (eq_sym (rfc_number NZ R1))) EQ) as [-> EQ2].
      assert (CW : exists c, In c cs /\ z0 = as_i32 (ez (fst c)) /\ name = ename (fst c)).
      { rewrite DN in WD. destruct (assoc Z.eqb z0 _) as [n0|] eqn:AS; [|discriminate]. injection WD as ->.
        apply assocZ_in in AS. apply in_map_iff in AS as (c & [= <- <-] & Hc). now exists c. }
      destruct CW as (c & Hc & -> & ->). destruct (known_disc Hc M2 R1 SW) as [X EZ].
      destruct (case_in UF Hc) as [HI (EN & tys & AF & ETY)]. destruct (Forall2_in_l FV HI) as (q & Hq & EV). unfold indexer_variant_sem in EV. rewrite EN, ETY in EV.
      unfold disc_tys in EV. rewrite M2 in EV. cbn [token_id obind app] in EV.
      destruct (arm_plain SD FF ci AF) as (Ea & _ & Ts & EO & AT). rewrite Ea, EO in EV. injection EV as <-.
      assert (Q : (ename (fst c), Ts) = (ename (fst c), ts)) by (apply (NoDup_map_inj NV); try easy; now apply nth_error_In with (1 := HN)).
      injection Q as ->. assert (NE : number_of d (ez (fst c))) by now rewrite EZ.
      apply (case_xv nm UF Hc X NE). exact (arm_hit (case_arm_max Hc) AT (HA (same_arm Hc EZ)) AA R2 EQ2).
    Qed.

    Lemma disc_plain : union_impl_union cfg = true -> exists k, tkind cfg ds t k /\ attr_of k = ANone.
    Proof.
      intros M. destruct (TsBool_dec t) as [Et|NB]; [rewrite Et; exists KPlain; split; [constructor|easy]|].
      assert (H : is_uint ds t \/ exists e y l, t = TsIdent e /\ first e (type_defs ds) (TdEnum y l) /\ (enum_impl_std_trait cfg = true -> dense ds l)).
      { pose proof DO as DO'. unfold disc_ok in DO'. rewrite M in DO'. destruct t; try easy; destruct DO' as (_ & _ & _ & [H|(e & y & l & E' & F & N & H)]); (now left) || (right; eauto 8). }
      destruct H as [H|(e & y & l & -> & F & DN)]; [exists KPlain; split; [now apply uint_kind|easy]|].
      destruct (enum_impl_std_trait cfg) eqn:st.
      - exists KDense. split; [eapply tk_dense; eauto|easy].
      - exists KPlain. split; [eapply tk_enum; eauto|easy].
    Qed.

    Lemma union_hit T v b bs r r2 : union_impl_union cfg = true -> union_sem f u = Some T -> accepts E T v b ->
      rfc (XUnion d a) bs -> b ++ r = bs ++ r2 -> xtype ds dm ut (XUnion d a).
    Proof.
      intros M2 ET A RX EQ. assert (ci : union_complement_index cfg = false) by (unfold union_complement_index; now rewrite M2, andb_comm).
      destruct (union_means SD FF UF DO M2) as (vss & dt & names & ET' & DT & NV & FV & FN). rewrite ET in ET'. injection ET' as ->.
      inversion RX as [| | | | | | | | | | | | |? ? b1 b2 R1 R2| | |]; subst. rewrite <- app_assoc in EQ.
      destruct (uf_cases UF) as [p CF]. destruct (cf_tok CF) as (k0 & K0 & T0). destruct (disc_plain M2) as (k & K & AN).
      rewrite (proj1 (op_kind ds cfg) _ _ K _ _ T0) in T0.
      assert (FS : field_sem f (attr_of k) cty = Some dt) by (rewrite AN; exact DT).
      assert (DISC : forall v0 w rest, accepts E dt v0 w -> w ++ rest = b1 ++ b2 ++ r2 -> rest = b2 ++ r2 /\ xtype ds dm t d /\
        forall c q, In c cs -> pat_sem f cty (pat_of cfg ds t (fst c)) = Some q -> (rval_eqb v0 q = true <-> ez (fst c) = z)).
      { intros v0 w rest A0 EQ0. pose proof (HDt K T0 FS A0 R1 EQ0) as X. destruct (align_t X K T0 FS A0 R1 EQ0) as (_ & EQ1 & y0 & D0 & W0).
        split; [easy|]. split; [easy|]. destruct (disc_value SD FF HE UF DO X NZ M2 DT) as (v' & y' & D' & W' & H).
        assert (v0 = v') as ->; [|exact H]. apply (denotes_value D0 D'). apply same_trans with d; [now apply same_sym|easy]. }
      assert (FN' : forall i name q va, nth_error vss i = Some (name, q) -> In va (un_variants u) -> forall q', union_variant_sem f cty va = Some (name, q') -> q = q').
      { intros i name q va Hi Hv q' Hq. destruct (Forall2_in_l FV Hv) as (q1 & H1 & H2). rewrite Hq in H2. injection H2 as <-.
        assert (EQQ : (name, q) = (name, q')); [|now injection EQQ]. apply (NoDup_map_inj NV); try easy. now apply nth_error_In with (1 := Hi). }
      assert (MAIN : forall i name q v0, xtype ds dm t d ->
        (forall c q, In c cs -> pat_sem f cty (pat_of cfg ds t (fst c)) = Some q -> (rval_eqb v0 q = true <-> ez (fst c) = z)) ->
        with_dflt (assoc rval_eqb v0 names) (match t with TsBool => DErr | _ => match dflt with Some _ => DVal "Default"%string | None => DErr end end) = DVal name ->
        nth_error vss i = Some (name, q) -> exists Ts, q = Some Ts /\
          forall vv bb, accepts_all E Ts vv bb -> bb ++ r = b2 ++ r2 -> xtype ds dm ut (XUnion d a)).
      { intros i name q v0 X PV WD HN. pose proof (assoc_names PV FN) as AS. destruct (assoc rval_eqb v0 names) as [n0|].
        - destruct AS as (c & Hc & EZ & ->). injection WD as <-. destruct (case_in UF Hc) as [HI (EN & tys & AF & ETY)].
          destruct (arm_plain SD FF ci AF) as (Ea & _ & Ts & EO & AT).
          assert (EV : union_variant_sem f cty (snd c) = Some (ename (fst c), Some Ts)).
          { unfold union_variant_sem. rewrite EN, ETY, Ea. unfold disc_tys. rewrite M2. cbn. now rewrite rty_eqb_refl, EO. }
          exists Ts. split; [exact (FN' _ _ _ _ HN HI _ EV)|]. intros vv bb AA EQB. assert (NE : number_of d (ez (fst c))) by now rewrite EZ.
          apply (case_xv nm UF Hc X NE). exact (arm_hit (case_arm_max Hc) AT (HA (same_arm Hc EZ)) AA R2 EQB).
        - cbn [with_dflt] in WD. destruct (TsBool_dec t) as [Et|NB]; [rewrite Et in WD; discriminate|].
          assert (TT : forall {A} (a b : A), match t with TsBool => a | _ => b end = b) by (intros; now destruct t).
          rewrite TT in WD. clear TT. pose proof (uf_default UF) as DA'. pose proof GU as (_ & _ & GD). destruct dflt as [arm|] eqn:ED; [|discriminate]. injection WD as <-.
          destruct DA' as (tys & EDV & DF).
          assert (HI : In (Variant ANone default_id (disc_tys cfg cty ++ tys)) (un_variants u)).
          { rewrite (uf_variants UF), EDV. apply in_or_app. right. now left. }
          assert (AT : exists Ts, omap (ty_sem f) tys = Some Ts /\ arm_types cfg ds f arm Ts).
          { destruct DF as [[-> ->]|(k1 & ty & K1 & TK & -> & KU)]; [exists []; split; [easy|now left]|].
            destruct (arm_ty SD FF K1 TK (KU M2)) as [T' E']. exists [T']. cbn. rewrite E'. split; [easy|]. right. exists k1, ty. split; [easy|]. split; [easy|].
            left. split; [now apply KU|eauto]. }
          destruct AT as (Ts & EO & AT).
          assert (EV : union_variant_sem f cty (Variant ANone default_id (disc_tys cfg cty ++ tys)) = Some ("Default"%string, Some Ts)).
          { unfold union_variant_sem, disc_tys. rewrite M2. cbn. now rewrite rty_eqb_refl, EO. }
          exists Ts. split; [exact (FN' _ _ _ _ HN HI _ EV)|]. intros vv bb AA EQB.
          assert (NL : forall v, In v (labels specs) -> ~ label_is ds v z).
          { intros v1 Hv Lv. unfold labels in Hv. apply in_flat_map in Hv as ([ls d'] & H1 & H2).
            destruct (cf_entry CF H1 H2 Lv) as [w Hw]. now apply (AS _ Hw). }
          destruct (GD arm eq_refl) as (arm1 & E1 & G1 & NL1).
          assert (arm1 = arm') as ->.
          { destruct SEL as [(vs2 & v2 & I2 & V2 & L2)|[E2 _]]; [|congruence]. exfalso. destruct (NL1 v2 z) as (v3 & I3 & L3); [|easy|now apply (NL v3)].
            unfold labels. apply in_flat_map. now exists (CaseSpec vs2 arm'). }
          unfold ut. apply xt_default with z; try easy. exact (arm_hit (ND eq_refl) AT (HA G1) AA R2 EQB). }
      inversion A as [ | | | | | | | | | | | | | | | | | | | | | | | | | | | |? ? ? ? i v0 w name A0 WD HN _|? ? ? ? i v0 w name ts vv bb A0 WD HN _ _ AA| ]; subst.
      - destruct (DISC _ _ _ A0 EQ) as (EQ2 & X & PV). now destruct (MAIN _ _ _ _ X PV WD HN) as (Ts & ? & _).
      - rewrite <- app_assoc in EQ. destruct (DISC _ _ _ A0 EQ) as (EQ2 & X & PV). destruct (MAIN _ _ _ _ X PV WD HN) as (Ts & [= <-] & H). now apply (H vv bb).
    Qed.
  End Union.

  (** ** Everything *)
  Lemma var_decl t y x : Ht t x -> Hd (DVariable t y) x.
  Proof.
    intros H _. split; [discriminate|]. intros k ty T v b bs r r2 K TK FS A RX EQ. inversion K; subst. inversion TK; subst.
    constructor. now apply (H k ty T v b bs r r2).
  Qed.
  Lemma decl_var t y x : Hd (DVariable t y) x -> Ht t x.
  Proof.
    intros H k ty T v b bs r r2 K TK FS A RX EQ. destruct (H eq_refl) as [_ H'].
    assert (X : xdecl ds dm (DVariable t y) x); [|now inversion X]. apply (H' k ty T v b bs r r2); try easy; now constructor.
  Qed.
  Lemma typedef_hit n d x : first n (type_defs ds) (TdDecl d) -> Hd d x -> Ht (TsIdent n) x.
  Proof.
    intros F H k ty T v b bs r r2 K TK FS A RX EQ. pose proof (no_max NM (first_in F)) as M. injection M as M. destruct (H M) as [_ H'].
    inversion TK as [| | | | | | |? td F1 N1|? d' ? ? F1 D1]; subst; [rewrite <- (first_fun F F1) in N1; discriminate|].
    pose proof (first_fun F F1) as Eq. injection Eq as <-. apply xt_typedef with d; [easy|].
    inversion K as [| | | | | | |? ? ? F2 M2|? ? ? F2 M2|? ? ? F2 M2 DN|? ? ? F2|? ? ? F2|? d2 ? F2 K2|? d2 F2 K2]; subst;
      pose proof (first_fun F F2) as Eq; try discriminate; injection Eq as <-.
    - now apply (H' k ty T v b bs r r2).
    - now apply (H' KDense ty T v b bs r r2).
  Qed.
  Let named (t' : tyspec) (x : xv) : Prop :=
    (by_keyword t' -> Ht t' x) /\ (forall n n', t' = TsIdent n' -> R n n' -> Ht (TsIdent n) x) /\
    (forall n' d', t' = TsIdent n' -> first n' (type_defs new) (TdDecl d') -> forall d, gd d d' -> Hd d x).
  Lemma named_hits t' x : named t' x -> (forall d d', gd d d' -> forall y, d' = DVariable t' y -> Hd d x) /\
    (forall t t0, gs t t0 -> t0 = t' -> Ht t x).
  Proof.
    intros (F1 & F2 & F3). unfold gd, gs. apply grown_grown_spec_ind; try discriminate.
    - intros t t0 y y' _ H z [= -> _]. apply var_decl. auto.
    - intros n y d d' F _ H z EQ. apply var_decl. eapply typedef_hit; eauto.
    - intros n y d d' F G _ z [= <- _]. eapply F3; eauto.
    - intros t B ->. auto.
    - intros n n' HR <-. eauto.
    - intros n d t0 y F _ H ->. eapply typedef_hit; eauto.
    - intros n d t y F G _ <-. apply decl_var with y. eapply F3; eauto.
  Qed.
  (** typedefs of the old file *)
  Lemma inlined d' x : (forall t y, d' <> DVariable t y) ->
    (forall d, gd d d' -> (forall t y, d <> DVariable t y) -> Hd d x) -> forall d, gd d d' -> Hd d x.
  Proof.
    intros N H d G. unfold gd in *. induction G; try (apply H; [econstructor; eauto|discriminate]).
    - now destruct (N t' x').
    - apply var_decl. eapply typedef_hit; eauto.
    - now destruct (N (TsIdent n) x0).
  Qed.
  Ltac decl_by := apply inlined; [discriminate|]; intros d G N; inversion G; subst; try (exfalso; eapply N; reflexivity).

  Let body (t' : tyspec) (x : xv) : Prop :=
    match t' with
    | TsEnum l' => exists a z, In a l' /\ value_is new (as_value a) z /\ x = XEnum z
    | TsStruct l' => exists xs, x = XStruct xs /\ forall l, Forall2 gd l l' -> Forall2 Hd l xs
    | TsUnion (UBody c' specs' dflt') => exists t' y' d a z arm', c' = DVariable t' y' /\ x = XUnion d a /\ xtype new dm' t' d /\ number_of d z /\
        ((exists vs' v', In (CaseSpec vs' arm') specs' /\ In v' vs' /\ label_is new v' z) \/ dflt' = Some arm' /\ forall v, In v (labels specs') -> ~ label_is new v z) /\
        (forall arm, gd arm arm' -> Hd arm a) /\ (forall t, gs t t' -> Ht t d)
    | _ => True
    end.

  Lemma item_ref_hit x td i T v b : first x (type_defs ds) td -> is_typedef td = false -> find_item f (camel x) = Some i ->
    field_sem f ANone (YName (camel x)) = Some T -> accepts E T v b -> exists T', item_sem f i = Some T' /\ accepts E T' v b.
  Proof.
    intros F N FI FS A. cbn in FS. rewrite FI in FS. injection FS as <-. destruct (env_lookup HE FI) as (T' & IT & LK).
    inversion A as [ | | | | | | | | | | | | | | | | | | | | | | | | | | | | | |? T2 ? ? LK' A']; subst. exists T'. split; [easy|]. congruence.
  Qed.

  Lemma struct_hit n y l xs : first n (type_defs ds) (TdStruct y l) -> Forall2 Hd l xs -> Ht (TsIdent n) (XStruct xs).
  Proof.
    intros F H k ty T v b bs r r2 K TK FS A RX EQ. pose proof (item_named F eq_refl TK) as ->.
    assert (AN : attr_of k = ANone) by (inversion K as [| | | | | | |? ? ? F1 M|? ? ? F1 M|? ? ? F1 M DN|? ? ? F1|? ? ? F1|? ? ? F1|? ? F1]; subst; try discriminate (first_fun F F1); easy).
    rewrite AN in FS. destruct (find_item_of SD FF F eq_refl) as (i & _ & FI & _ & _ & s & -> & SF).
    destruct (item_ref_hit F eq_refl FI FS A) as (T' & IT & A'). cbn in IT.
    destruct (struct_means SD FF SF) as (ts & ES & FT). rewrite IT in ES. injection ES as ->.
    inversion A' as [ | | | | | | | | | | | | | | | | | |? vv ? AA| | | | | | | | | | | | ]; subst.
    pose proof (no_max NM (first_in F)) as M. injection M as M. inversion RX as [| | | | | | | | | | | |? ? RS| | | |]; subst.
    apply xt_name_struct with y l; [easy|]. constructor. exact (fields_hit SF (map_fixed M) FT H AA RS EQ).
  Qed.

  Lemma union_item_hit n y u u' x : first n (type_defs ds) (TdUnion y u) -> grown_union ds new R u u' -> one_arm new u' -> body (TsUnion u') x ->
    Ht (TsIdent n) x.
  Proof.
    intros F GU OA B k ty T v b bs r r2 K TK FS A RX EQ. pose proof (item_named F eq_refl TK) as ->.
    assert (AN : attr_of k = ANone) by (inversion K as [| | | | | | |? ? ? F1 M|? ? ? F1 M|? ? ? F1 M DN|? ? ? F1|? ? ? F1|? ? ? F1|? ? F1]; subst; try discriminate (first_fun F F1); easy).
    rewrite AN in FS. destruct u as [c specs dflt], u' as [c' specs' dflt'].
    pose proof (sd_items SD (first_in F)) as SU. destruct SU as (_ & (t & nm & -> & DO) & _).
    pose proof (EX (first_in F)) as UX. cbn beta iota in UX. pose proof (no_max NM (first_in F)) as M. injection M as M1 M2.
    destruct (find_item_of SD FF F eq_refl) as (i & _ & FI & IF).
    pose proof IF as (_ & _ & ui & -> & t' & nm' & cty & cs & vs & dvs & Ec & UF). injection Ec as <- <-.
    destruct (item_ref_hit F eq_refl FI FS A) as (T' & IT & A'). cbn in IT.
    assert (NC : forall ls d, In (CaseSpec ls d) specs -> without_max d = d).
    { intros ls d H. pose proof (map_fixed M1) as FX. rewrite Forall_forall in FX. specialize (FX _ H). cbn in FX. congruence. }
    assert (ND : forall d, dflt = Some d -> without_max d = d) by (intros d ->; cbn in M2; congruence).
    destruct B as (t1 & y1 & d & a & z & arm' & -> & -> & XD & NZ & SEL & HA & HDt).
    assert (G1 : gs t t1). { destruct GU as ((t0 & t2 & x0 & x1 & [= <- <-] & [= <- <-] & G) & _). exact G. }
    apply xt_name_union with y (UBody (DVariable t nm) specs dflt); [easy|].
    destruct (union_modes cfg) as [U1|[U2|ci]].
    - exact (indexer_hit UF UX NC GU OA XD NZ SEL HA U1 IT A' RX EQ).
    - exact (union_hit UF DO UX NC ND GU OA NZ SEL HA (HDt _ G1) U2 IT A' RX EQ).
    - exact (serde_hit UF DO UX NC ND GU OA XD NZ SEL HA ci IT A' RX EQ).
  Qed.

  Lemma hits :
    (forall t' x, xtype new dm' t' x -> (forall t, gs t t' -> Ht t x) /\ (forall d y, gd d (DVariable t' y) -> Hd d x) /\ body t' x) /\
    (forall d' x, xdecl new dm' d' x -> forall d, gd d d' -> Hd d x) /\
    (forall t' xs, xall new dm' t' xs -> forall t, gs t t' -> Forall (Ht t) xs) /\
    (forall l' xs, xfields new dm' l' xs -> forall l, Forall2 gd l l' -> Forall2 Hd l xs).
  Proof.
    assert (NG : forall t' x, named t' x -> body t' x -> (forall t, gs t t' -> Ht t x) /\ (forall d y, gd d (DVariable t' y) -> Hd d x) /\ body t' x).
    { intros t' x N B. destruct (named_hits N) as [G1 G2]. split; [|split]; eauto. }
    assert (KW : forall t' x, (forall n, t' <> TsIdent n) -> (by_keyword t' -> Ht t' x) -> named t' x).
    { intros t' x N H. split; [easy|]. split; intros n d EQ; [now destruct (N d)|now destruct (N n)]. }
    assert (ID : forall n' t' x, first n' (type_defs new) t' -> (forall n t, R n n' -> first n (type_defs ds) t -> grown_type ds new R t t' -> Ht (TsIdent n) x) ->
      (forall d', t' = TdDecl d' -> forall d, gd d d' -> Hd d x) -> named (TsIdent n') x).
    { intros n' t' x F H1 H2. split; [easy|]. split.
      - intros n m [= <-] HR. destruct (U HR) as (t & t1 & F0 & F1 & G). rewrite (first_fun F1 F) in G. eauto.
      - intros m d' [= <-] F1. apply H2. exact (first_fun F F1). }
    apply xtype_xdecl_ind.
    1-11: intros; (apply NG; [apply KW; [discriminate|]; intros _; intros ? ? ? ? ? ? ? ? _ _ _ _ _ _; now constructor|exact Logic.I]).
    - intros l a z I V B. apply NG; [apply KW; [discriminate|easy]|]. now exists a, z.
    - intros l xs _ H. apply NG; [apply KW; [discriminate|easy]|]. now exists xs.
    - intros t y specs dflt d z vs v arm a XD (HD & _) N I Iv L _ HA. apply NG; [apply KW; [discriminate|easy]|].
      exists t, y, d, a, z, arm. split; [easy|]. split; [easy|]. split; [easy|]. split; [easy|]. split; [left; now exists vs, v|easy].
    - intros t y specs d z arm a D XD (HD & _) N L _ HA. apply NG; [apply KW; [discriminate|easy]|].
      exists t, y, d, a, z, arm. split; [easy|]. split; [easy|]. split; [easy|]. split; [easy|]. split; [now right|easy].
    - intros n d x F _ H. apply NG; [|exact Logic.I]. apply (ID n _ x F).
      + intros n0 t HR F0 G. destruct t; try easy. eapply typedef_hit; [exact F0|]. now apply H.
      + intros d1 [= <-]. exact H.
    - intros n y l x F _ (_ & _ & (a & z & Ia & V & ->)). apply NG; [|exact Logic.I]. apply (ID n _ _ F); [|discriminate].
      intros n0 t HR F0 G. destruct t as [|y0 l0| |]; try easy. intros k ty T v b bs r r2 K TK FS A RX EQ.
      refine (enum_hit F0 _ K TK FS A RX EQ). intros IX. exact (NI IX HR F0 F Ia V).
    - intros n y l x F _ (_ & _ & (xs & -> & H)). apply NG; [|exact Logic.I]. apply (ID n _ _ F); [|discriminate].
      intros n0 t HR F0 G. destruct t; try easy. eapply struct_hit; [exact F0|]. now apply H.
    - intros n y u x F _ (_ & _ & H). apply NG; [|exact Logic.I]. apply (ID n _ x F); [|discriminate].
      intros n0 t HR F0 G. destruct t; try easy. eapply union_item_hit; [exact F0|exact G|exact (NU F)|exact H].
    - intros t y x _ (_ & H & _). intros d. apply H.
    - intros t y v xs V _ H. decl_by. intros _. split; [discriminate|]. intros k ty T rv b bs r r2 K TK FS A RX EQ.
      inversion K as [|? ? c z0 KT SF RZ| | | | |]; subst. inversion TK as [|? ? ? len ty' op' HT LT| | | | | |]; subst.
      inversion LT as [? z' S'|]; subst. rewrite (stands_fun S' SF) in *.
      cbn [attr_of field_sem ty_sem] in FS. destruct (ty_sem f ty') as [T'|] eqn:ET; [|discriminate]. cbn [obind] in FS.
      destruct (array_len f (TokNum z0) false) as [m|] eqn:EL; [|discriminate]. injection FS as <-. apply array_num in EL as [_ ->].
      assert (VZ : value_is ds (VConst c) z0) by now constructor.
      assert (z0 = zlen xs) as ->. { match goal with HV : forall z, value_is ds _ z -> _ |- _ => exact (value_is_fun (HV _ VZ) V) end. }
      inversion A as [ | | | | | | | | | | | | | | |? ? vv ? AA| | | | | | | | | | | | | | | ]; subst. inversion RX as [| | | | | | | | | |? ? RS| | | | | |]; subst.
      constructor; [easy|]. unfold zlen in AA. rewrite Nat2Z.id in AA.
      refine (all_hit KT HT (ET : field_sem f (attr_of KPlain) ty' = Some T') _ _ AA RS EQ); [eauto|]. now apply H.
    - intros t y max xs [W _] _ H. decl_by. intros M. injection M as <-. split; [discriminate|]. intros k ty T rv b bs r r2 K TK FS A RX EQ.
      inversion K as [| |? ? ? k' KT KK| | | |]; subst. cbn [op_of attr_of] in TK, FS.
      inversion RX as [| | | | | | | | | | |nb ? rb UN RS| | | | |]; subst. rewrite <- app_assoc in EQ. constructor; [split; [easy|exact Logic.I]|].
      assert (Q : forall T', T = TSeq T' -> (forall vs b r, accepts_all E (repeat T' (length xs)) vs b -> b ++ r = rb ++ r2 -> xall ds dm t0 xs) -> xall ds dm t0 xs).
      { intros T' -> HH. inversion A as [ | | | | | | | | | | | | | |? vv ? bb UV AA| | | | | | | | | | | | | | | | ]; subst. rewrite <- app_assoc in EQ.
        destruct (app_word (eq_trans (proj1 UV) (eq_sym (proj1 UN))) EQ) as [-> EQ2]. pose proof (unsigned_val UV UN) as LL.
        assert (length vv = length xs) as L1 by (unfold zlen in LL; lia). rewrite L1 in AA. now apply (HH vv bb r). }
      assert (HX : Forall (Ht t0) xs) by now apply H.
      inversion TK as [| |? ? ? ty' HT|? ? ? ty' op' HT NV| | | |]; subst.
      + injection FS as <-. apply (Q TVariableArray); [easy|]. intros vs b0 r0 AA EQA.
        assert (k' = KVar) as ->.
        { destruct KK as [->| ->]; [|easy]. pose proof (proj1 (kind_sem (IN SD) (find_enum_facts SD FF) (const_means SD FF)) t0 KPlain KT ty' _ HT) as [HO _]. discriminate HO. }
        destruct (tkind_field SD FF KT HT) as [T' ET]. pose proof (var_field ET) as E'. subst T'.
        exact (all_hit KT HT ET var_accepts HX AA RS EQA).
      + pose proof (proj1 (kind_sem (IN SD) (find_enum_facts SD FF) (const_means SD FF)) t0 k' KT ty' _ HT) as [HO _].
        assert (k' = KPlain) as -> by (destruct KK as [->| ->]; [easy|discriminate HO]).
        cbn in FS. destruct (ty_sem f ty') as [T'|] eqn:ET; [|discriminate]. injection FS as <-. apply (Q T'); [easy|]. intros vs b0 r0 AA EQA.
        refine (all_hit KT HT (ET : field_sem f (attr_of KPlain) ty' = Some T') _ HX AA RS EQA). eauto.
    - intros y v bs V. decl_by. intros _. split; [discriminate|]. intros k ty T rv b bs0 r r2 K TK FS A RX EQ.
      inversion K as [| | |? ? LO| | |]; subst. inversion TK as [| | | |? ? len LT| | |]; subst.
      cbn [attr_of field_sem] in FS. destruct (array_len f len true) as [m|] eqn:EL; [|discriminate]. injection FS as <-.
      destruct (len_sem (IN SD) (find_enum_facts SD FF) (const_means SD FF) LO LT) as (z & V' & _ & _). constructor.
      match goal with HV : forall z, value_is ds _ z -> _ |- _ => now rewrite <- (value_is_fun (HV _ V') V) end.
    - intros y max bs [W _]. decl_by. intros M. injection M as <-. split; [discriminate|]. intros. constructor. split; [easy|exact Logic.I].
    - intros y max bs UT [W _]. decl_by. intros M. injection M as <-. split; [discriminate|]. intros. constructor; [easy|split; [easy|exact Logic.I]].
    - intros t y. decl_by. intros _. split; [discriminate|]. intros. constructor.
    - intros t y x _ (H & _). decl_by. intros _. split; [discriminate|]. intros k ty T rv b bs r r2 K TK FS A RX EQ.
      inversion K as [| | | | | |? ? KT]; subst. inversion TK as [| | | | | | |? ? ty' op' HT]; subst. cbn in FS.
      destruct (ty_sem f ty') as [T'|] eqn:ET; [|discriminate]. injection FS as <-.
      inversion RX as [| | | | | | | | | | | | | | | |? w1 b1 UW R1]; subst. rewrite <- app_assoc in EQ. constructor.
      inversion A as [ | | | | | | | |? w UV|? v w z bb UV NZ A1| | | | | | | | | | | | | | | | | | | | | ]; subst.
      + destruct (app_word (eq_trans (proj1 UV) (eq_sym (proj1 UW))) EQ) as [-> _]. pose proof (unsigned_val UV UW). discriminate.
      + rewrite <- app_assoc in EQ. destruct (app_word (eq_trans (proj1 UV) (eq_sym (proj1 UW))) EQ) as [-> EQ2].
        now refine (H _ _ KPlain ty' T' v bb b1 r r2 KT HT ET A1 R1 EQ2).
    - decl_by. intros _. split; [intros; constructor|]. intros k ty T rv b bs r r2 K. inversion K.
    - constructor.
    - intros t x xs _ (H & _) _ HS t' G. constructor; auto.
    - intros l' G. inversion G; subst. constructor.
    - intros d l x xs _ H _ HS l' G. inversion G; subst. constructor; auto.
  Qed.

  (** ** Whole messages *)
  Lemma misread_none x x' td xval bs n v : R x x' -> first x (type_defs ds) td -> is_typedef td = false ->
    (forall y l, td = TdEnum y l -> enum_impl_std_trait cfg = false \/ dense ds l) ->
    xtype new dm' (TsIdent x') xval -> rfc xval bs -> from_bytes n E (TRef (camel x)) bs = Ok v ->
    xtype ds dm (TsIdent x) xval /\ speaks E (TRef (camel x)) v xval.
  Proof.
    intros HR F N EN X RX H. apply from_bytes_inv in H.
    assert (K : exists k, tkind cfg ds (TsIdent x) k /\ attr_of k = ANone).
    { destruct td as [d|y l|y l|y u]; [discriminate| | |].
      - destruct (enum_impl_std_trait cfg) eqn:st.
        + exists KDense. split; [|easy]. eapply tk_dense; eauto. destruct (EN _ _ eq_refl); easy.
        + exists KPlain. split; [|easy]. eapply tk_enum; eauto.
      - exists KPlain. split; [|easy]. eapply tk_struct; eauto.
      - exists KPlain. split; [|easy]. eapply tk_union; eauto. }
    destruct K as (k & K & A). destruct (proj1 (tok_total cfg ds) _ _ K) as [ty TK].
    pose proof (item_named F N TK) as ->. destruct (find_item_of SD FF F N) as (i & _ & FI & _).
    assert (FS : field_sem f (attr_of k) (YName (camel x)) = Some (TRef (camel x))) by (rewrite A; cbn; now rewrite FI).
    assert (EQ : bs ++ [] = bs ++ []) by easy.
    pose proof (proj1 (proj1 hits _ _ X) (TsIdent x) (@gs_name ds new R x x' HR) k _ _ v bs bs [] [] K TK FS H RX EQ) as X0.
    split; [exact X0|]. destruct (align_t X0 K TK FS H RX EQ) as (_ & _ & y & D & W). now apply speaks_denotes with y.
  Qed.
End Misread.

Lemma no_new_max old new R : no_new_members old new R -> no_new_members (map def_without_max old) (map def_without_max new) R.
Proof.
  intros H x x' y y' l l' a' z HR F F' I V. apply first_max_back in F as (t & F & Et), F' as (t' & F' & Et').
  destruct t; try discriminate. destruct t'; try discriminate. injection Et as <- <-. injection Et' as <- <-.
  destruct (H _ _ _ _ _ _ _ _ HR F F' I (proj1 (value_max new _ _) V)) as (a & Ia & Va). exists a. split; [easy|]. exact (proj2 (value_max old _ _) Va).
Qed.

(** ** Messages of the new protocol *)
Lemma upgrade_reads fl fl' checks checks' src src' old new R f E :
  let cfg := main_config fl checks in let cfg' := main_config fl' checks' in
  greturns (fun n => parse n src) (GOk old) -> definitions_ok cfg old -> exact_defs cfg old ->
  greturns (fun n => parse n src') (GOk new) -> definitions_ok cfg' new -> upgrade old new R ->
  (enum_impl_indexer cfg = true -> no_new_members old new R) -> generated cfg old f E ->
  forall x x' td, R x x' -> first x (type_defs old) td -> is_typedef td = false ->
    (forall y l, td = TdEnum y l -> enum_impl_std_trait cfg = false \/ dense old l) ->
    exists y, camel_of x y /\ forall dm xval bs n v, xtype (map def_without_max new) dm (TsIdent x') xval -> rfc xval bs ->
      from_bytes n E (TRef y) bs = Ok v ->
      xtype (map def_without_max old) (union_impl_union cfg) (TsIdent x) xval /\ speaks E (TRef y) v xval.
Proof.
  intros cfg cfg' P DO EX P' DO' U NI GE x x' td HR F N EN. exists (camel x). split; [apply camel_of_camel|]. intros dm xval bs n v X RX H.
  pose proof (supported_max (supported_main P DO : supported_defs cfg old)) as SD.
  pose proof (supported_max (supported_main P' DO' : supported_defs cfg' new)) as SD'.
  pose proof (generated_max GE) as [GN HE]. pose proof (file_of SD (conj GN HE)) as FF.
  refine (@misread_none cfg _ SD f GN FF E HE (max_idem old) (exact_max EX) _ R dm (upgrade_max U) _ _ x x' (type_without_max td) xval bs n v HR _ _ _ X RX H).
  - intros x0 y0 u0 F0. apply supported_one_arm with cfg'. exact (sd_items SD' (first_in F0)).
  - intros IX. apply no_new_max. now apply NI.
  - now apply first_max.
  - now destruct td.
  - intros y l Et. destruct td; try discriminate. injection Et as <- <-. destruct (EN _ _ eq_refl) as [?|D]; [now left|right; now apply dense_max].
Qed.

(** what the new program holds and the old one reads *)
Lemma upgrade_hears fl fl' checks checks' src src' old new R f f' E E' :
  let cfg := main_config fl checks in let cfg' := main_config fl' checks' in
  greturns (fun n => parse n src) (GOk old) -> definitions_ok cfg old -> exact_defs cfg old ->
  greturns (fun n => parse n src') (GOk new) -> definitions_ok cfg' new -> exact_defs cfg' new -> upgrade old new R ->
  (enum_impl_indexer cfg = true -> no_new_members old new R) -> generated cfg old f E -> generated cfg' new f' E' ->
  forall x x' td td', R x x' -> first x (type_defs old) td -> is_typedef td = false -> first x' (type_defs new) td' ->
    (forall y l, td = TdEnum y l -> enum_impl_std_trait cfg = false \/ dense old l) ->
    (forall y l, td' = TdEnum y l -> enum_impl_std_trait cfg' = false \/ dense new l) ->
    exists y y', camel_of x y /\ camel_of x' y' /\ forall n m bs0 bs v v', from_bytes m E' (TRef y') bs0 = Ok v' ->
      returns (fun n => to_bytes n E' (TRef y') v') (Ok bs) -> from_bytes n E (TRef y) bs = Ok v ->
      exists xval, speaks E' (TRef y') v' xval /\ speaks E (TRef y) v xval.
Proof.
  intros cfg cfg' P DO EX P' DO' EX' U NI GE GE' x x' td td' HR F N F' EN EN'.
  destruct (upgrade_reads P DO EX P' DO' U NI GE HR F N EN) as (y & Cy & H). exists y, (camel x'). split; [easy|]. split; [apply camel_of_camel|].
  intros n m bs0 bs v v' D S B.
  assert (N' : is_typedef td' = false).
  { destruct (U _ _ HR) as (t & t' & F0 & F1 & G). rewrite (first_fun F' F1). rewrite (first_fun F0 F) in G. exact (grown_item G N). }
  destruct (d_value (supported_main P' DO') EX' GE' F' N' EN' D) as (xval & X & SP). exists xval. split; [exact SP|].
  destruct SP as [(bs1 & RX) SP]. destruct (SP _ RX) as [T1 _].
  assert (bs1 = bs) as -> by (destruct T1 as (_ & i & T1), S as (_ & j & T2); specialize (T1 _ (Nat.le_max_l i j)); specialize (T2 _ (Nat.le_max_r i j)); congruence).
  exact (proj2 (H _ _ _ _ _ X RX B)).
Qed.

(** ** The answer to every message of the new protocol *)
Lemma rfc_whole : (forall x bs, rfc x bs -> zlen bs mod 4 = 0) /\ (forall l bs, rfcs l bs -> zlen bs mod 4 = 0).
Proof.
  apply rfc_rfcs_ind; intros; rewrite ?zlen_app;
    repeat match goal with
    | H : signed _ _ _ |- _ => apply proj1 in H
    | H : unsigned _ _ _ |- _ => apply proj1 in H
    | H : zero_pad _ _ |- _ => destruct H
    end; unfold zlen in *; cbn [length]; lia.
Qed.

Lemma upgrade_answers fl fl' checks checks' src src' old new R f E :
  let cfg := main_config fl checks in let cfg' := main_config fl' checks' in
  greturns (fun n => parse n src) (GOk old) -> definitions_ok cfg old -> exact_defs cfg old -> self_free old ->
  greturns (fun n => parse n src') (GOk new) -> definitions_ok cfg' new -> upgrade old new R ->
  (enum_impl_indexer cfg = true -> no_new_members old new R) -> generated cfg old f E ->
  forall x x' td, R x x' -> first x (type_defs old) td -> is_typedef td = false ->
    (forall y l, td = TdEnum y l -> enum_impl_std_trait cfg = false \/ dense old l) ->
    exists y, camel_of x y /\ forall dm xval bs, xtype (map def_without_max new) dm (TsIdent x') xval -> rfc xval bs ->
      (xtype (map def_without_max old) (union_impl_union cfg) (TsIdent x) xval /\ exists v, speaks E (TRef y) v xval) \/
      (~ xtype (map def_without_max old) (union_impl_union cfg) (TsIdent x) xval /\
       exists e, returns (fun n => from_bytes n E (TRef y) bs) (Err e)).
Proof.
  intros cfg cfg' P DO EX SF P' DO' U NI GE x x' td HR F N EN.
  destruct (upgrade_reads P DO EX P' DO' U NI GE HR F N EN) as (y & Cy & H). exists y. split; [easy|]. intros dm xval bs X RX.
  pose proof (supported_main P DO : supported_defs cfg old) as SD. apply camel_of_iff in Cy as ->.
  assert (L : exists T, lookup E (camel x) = Some T).
  { destruct (find_item_of SD (file_of SD GE) F N) as (i & _ & FI & _). pose proof (find_lookup (proj2 GE) FI). destruct (lookup E (camel x)); [eauto|easy]. }
  destruct L as [T L].
  destruct (generated_outcome (i := bs) (proj1 GE) (proj2 GE) (w_compiles SD GE) SF L (proj1 rfc_whole _ _ RX)) as [(v & _ & k & B)|(e & B)].
  - left. destruct (H _ _ _ _ _ X RX (B k (Nat.le_refl k))) as [X0 S]. eauto.
  - right. split; [|eauto]. intros X0.
    destruct (@w_value cfg (map def_without_max old) (supported_max SD) f E (generated_max GE) x (type_without_max td) xval) as (y & v & Cy & _ & S).
    + now apply first_max.
    + now destruct td.
    + intros y l Et. destruct td; try discriminate. injection Et as <- <-. destruct (EN _ _ eq_refl) as [?|D]; [now left|right; now apply dense_max].
    + exact X0.
    + apply camel_of_iff in Cy as ->. pose proof (returns_det B (proj2 (S _ RX))). discriminate.
Qed.
