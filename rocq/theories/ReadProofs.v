(** The inputs that generated types accept. *)
From Verif Require Import Base SpecUtf8 RustTypes SerModel DeModel SpecXdr SpecTypes SpecDecode XdrFacts EncProofs DecProofs CodecProofs CodecLemmas Nom NomFacts Ast ParserModel
  SpecGrammar SpecParse ConstProofs CaseModel SpecCase CaseProofs RustAst GenModel SpecGen GenFacts GenTotal GenPanic SpecItems GenLemmas SpecXdl GenSem SpecWire SpecEmit SpecConv
  EmitProofs WireBase WireEnum WireTok WireStruct WireUnion WireFile WireSem WireMain WireLemmas WireConv WireBack WireEnums MaxDefs ConvLemmas SpecRead UpgradeProofs MisreadProofs.
Set Implicit Arguments.
Unset Strict Implicit.
Local Open Scope list_scope.

(** ** Acceptance of small types *)
Lemma accepts_all_nil E b : accepts_all E [] [] b <-> b = [].
Proof. split; [now inversion 1|intros ->; constructor]. Qed.
Lemma accepts_all_cons E T Ts v vs b : accepts_all E (T :: Ts) (v :: vs) b <-> exists b1 b2, b = b1 ++ b2 /\ accepts E T v b1 /\ accepts_all E Ts vs b2.
Proof. split; [inversion 1; subst; eauto|intros (b1 & b2 & -> & A1 & A2); now constructor]. Qed.
Lemma accepts_one E T v b : accepts_all E [T] [v] b <-> accepts E T v b.
Proof.
  rewrite accepts_all_cons. split.
  - intros (b1 & b2 & -> & A & N). apply accepts_all_nil in N as ->. now rewrite app_nil_r.
  - intros A. exists b, []. rewrite app_nil_r. split; [easy|]. split; [easy|constructor].
Qed.
Lemma accepts_data E v b : accepts E TVariableArray (RSeq [v]) b <-> accepts E TOpaqueVar v b.
Proof.
  split.
  - intros A. inversion A as [ | | | | | | | | | | | | | | | | | |? vs ? AA| | | | | | | | | | | | ]; subst. cbn in AA. now apply accepts_one in AA.
  - intros A. apply ac_struct. cbn. now apply accepts_one.
Qed.
Lemma accepts_ref E x T v b : lookup E x = Some T -> (accepts E (TRef x) v b <-> accepts E T v b).
Proof.
  intros L. split; [|intros A; now apply ac_ref with T].
  intros A. inversion A as [ | | | | | | | | | | | | | | | | | | | | | | | | | | | | | |? T' ? ? L' A']; subst. rewrite L in L'. now injection L' as <-.
Qed.
Lemma accepts_box E T v b : accepts E (TBox T) v b <-> accepts E T v b.
Proof. split; [now inversion 1|now constructor]. Qed.

Lemma accepts_fun E T v v' b : accepts E T v b -> accepts E T v' b -> v = v'.
Proof. intros A A'. now destruct (@accepts_det E T v v' b b [] [] A A' eq_refl). Qed.

(** integers *)
Lemma mod_small z n m : (z - n) mod m = 0 -> 0 < m -> exists q, z = n + q * m.
Proof. intros H P. exists ((z - n) / m). pose proof (Z.div_mod (z - n) m). lia. Qed.
Lemma accepts_int E s w z b : accepts E (TInt s w) (RInt z) b <->
  w <> W128 /\ int_range s w z /\ exists z', unsigned (int_bytes w) z' b /\ (z - z') mod 2 ^ bits w = 0.
Proof.
  split.
  - inversion 1; subst. eauto 6.
  - intros (NW & R & z' & U & M). now apply ac_int with z'.
Qed.
Lemma accepts_low E s w z b : w = W8 \/ w = W16 -> (accepts E (TInt s w) (RInt z) b <-> int_range s w z /\ low_bits (bits w) z b).
Proof.
  intros W. rewrite accepts_int. unfold low_bits. assert (int_bytes w = 4%nat) as -> by now destruct W as [->| ->]. split; [easy|].
  intros H. split; [now destruct W as [->| ->]|easy].
Qed.
Lemma accepts_unsigned E w z b : w = W32 \/ w = W64 -> (accepts E (TInt false w) (RInt z) b <-> unsigned (int_bytes w) z b).
Proof.
  intros W. rewrite accepts_int. split.
  - intros (_ & R & z' & U & M). pose proof (unsigned_range U) as B. apply mod_small in M as [q Q]; [|now destruct W as [->| ->]].
    assert (z = z') as ->; [|easy]. destruct W as [->| ->]; cbn in R, B, Q; lia.
  - intros U. pose proof (unsigned_range U) as B. split; [now destruct W as [->| ->]|]. split; [now destruct W as [->| ->]|].
    exists z. split; [easy|]. now rewrite Z.sub_diag.
Qed.
Lemma accepts_signed E w z b : w = W32 \/ w = W64 -> (accepts E (TInt true w) (RInt z) b <-> signed (int_bytes w) z b).
Proof.
  intros W. rewrite accepts_int. split.
  - intros (_ & R & z' & U & M). pose proof (unsigned_range U) as B. apply mod_small in M as [q Q]; [|now destruct W as [->| ->]].
    destruct U as [L V]. split; [easy|]. rewrite V. destruct W as [->| ->]; cbn in R, B, Q |- *; lia.
  - intros S. pose proof (signed_range (k := int_bytes w) ltac:(destruct W as [->| ->]; cbn; lia) S) as B.
    split; [now destruct W as [->| ->]|]. split; [now destruct W as [->| ->]|]. destruct S as [L S]. exists (nval b). split; [easy|].
    destruct S as [[_ ->]|[_ ->]]; [now rewrite Z.sub_diag|]. destruct W as [->| ->]; cbn [bits int_bytes].
    + replace (z - _) with (- 1 * 2 ^ 32) by (cbn; lia). reflexivity.
    + replace (z - _) with (- 1 * 2 ^ 64) by (cbn; lia). reflexivity.
Qed.
Lemma signed_unsigned z w : 0 <= z < 2 ^ 31 -> (unsigned 4 z w <-> signed 4 z w).
Proof.
  intros B. split; [intros U; now apply unsigned_signed|]. intros [L S]. split; [easy|]. cbn in S. lia.
Qed.
Lemma rfc_enum z b : rfc (XEnum z) b <-> signed 4 z b.
Proof. split; [now inversion 1|now constructor]. Qed.
Lemma rfc_int z b : rfc (XInt z) b <-> signed 4 z b.
Proof. split; [now inversion 1|now constructor]. Qed.

Section Reads.
  Variables (cfg : config) (ds : list definition).
  Hypothesis SD : supported_defs cfg ds.
  Variable f : file.
  Hypothesis GN : greturns (fun n => gen_code n cfg ds) (GOk f).
  Hypothesis FF : file_facts cfg ds f.
  Variable E : env.
  Hypothesis HE : file_env f = Some E.
  Hypothesis EX : exact_defs cfg ds.
  Let dm := union_impl_union cfg.
  Let ix := enum_impl_indexer cfg.

  Definition Rt (t : tyspec) (x : xv) : Prop :=
    forall k ty T, tkind cfg ds t k -> tok ds t ty (op_of k) -> field_sem f (attr_of k) ty = Some T ->
      exists v y, denotes true E T v y /\ same_wire x y /\ forall b, accepts E T v b <-> xread ds dm ix t x b.
  Definition Rd (d : decl) (x : xv) : Prop :=
    (d = DVoid -> x = XVoid) /\
    forall k ty T, dkind cfg ds d k -> dtok ds d ty (op_of k) -> field_sem f (attr_of k) ty = Some T ->
      exists v y, denotes true E T v y /\ same_wire x y /\ forall b, accepts E T v b <-> xread_decl ds dm ix d x b.

  (** ** Enums *)
  Lemma item_is x y l e : first x (type_defs ds) (TdEnum y l) -> find_item f (camel x) = Some (IEnum e) ->
    forall e', In (IEnum e') (fi_types f) -> en_name e' = camel x -> e' = e.
  Proof.
    intros F FI e' HI EN. assert (EQ : IEnum e' = IEnum e); [|now injection EQ].
    destruct (file_compiles SD FF) as (N & _). apply (NoDup_map_inj (f := GenSem.item_name)) with (1 := N); try easy.
    - unfold find_item in FI. now apply find_some in FI.
    - unfold find_item in FI. apply find_some in FI as [_ FI]. apply String.eqb_eq in FI. now rewrite FI.
  Qed.

  Lemma enum_reads n y l a z : first n (type_defs ds) (TdEnum y l) -> In a l -> value_is ds (as_value a) z -> Rt (TsIdent n) (XEnum z).
  Proof.
    intros F Ha V k ty T K TK FS. pose proof (item_named F eq_refl TK) as ->.
    destruct (made_enum SD GN FF F) as (e & FI & EM & EF). pose proof EF as ((NN & _) & Te & ET & _ & EV).
    pose proof (sd_items SD (first_in F)) as OK. cbn in OK.
    destruct (EV E a z Ha V) as (j & Pj & D1 & D2).
    assert (VALS : forall a, In a l -> exists z, value_is ds (as_value a) z).
    { intros b Hb. destruct OK as (_ & _ & _ & H & _). destruct (H b Hb) as (z' & Vb & _). eauto. }
    assert (PI : forall b i, In b l -> nth_error (enum_names e) i = Some (camel (as_name b)) -> i = j -> b = a).
    { intros b i Hb Pb ->. apply position_nth in Pj. rewrite Pj in Pb. injection Pb as EQ. destruct OK as (_ & CD & _).
      apply NoDup_map_inj with (1 := proj1 CD); try easy. symmetry. apply (camel_inj CD); try easy; now apply in_map. }
    assert (XN : forall b, xread ds dm ix (TsIdent n) (XEnum z) b <-> xread ds dm ix (TsEnum l) (XEnum z) b).
    { intros b. split; [|intros X; eapply xr_name_enum; eauto]. intros X.
      inversion X as [| | | | | | | | | | | | | | | | | |? ? ? ? F'|? ? ? ? ? F' X'|? ? ? ? ? F'|? ? ? ? ? F']; subst; pose proof (first_fun F F') as EQ; try discriminate.
      now injection EQ as <- <-. }
    assert (PLAIN : enum_impl_std_trait cfg = false \/ dense ds l -> forall b, accepts E Te (RVariant j []) b <-> xread ds dm ix (TsEnum l) (XEnum z) b).
    { intros M. destruct (D1 M) as (yv & D & W).
      assert (KN : forall b, signed 4 z b -> accepts E Te (RVariant j []) b).
      { intros b S. apply denotes_accepts with (1 := D). apply W. now constructor. }
      destruct (enum_impl_indexer cfg) eqn:EI.
      - (* the indexer mode *)
        assert (ST : enum_impl_std_trait cfg = false) by (destruct (sd_enum_mode SD); congruence).
        destruct (c45_unknown (sd_good SD) (one_scope_ds SD) ST EI GN (file_compiles SD FF) (first_in F)) as
          (e' & T' & HI & EN & ET' & i & nm & a0 & z0 & HN & CN & Ha0 & V0 & LOW & UNK).
        apply camel_of_iff in EN. pose proof (item_is F FI HI EN) as ->. rewrite ET in ET'. injection ET' as <-. apply camel_of_iff in CN. subst nm.
        assert (UNK' : forall w b, signed 4 w b -> (forall c, In c l -> ~ value_is ds (as_value c) w) -> accepts E Te (RVariant i []) b).
        { intros w b S N. destruct (UNK E w b S N) as (_ & M' & H). apply (@from_bytes_inv M'); now apply H. }
        intros b. split.
        + intros A.
          assert (WD : exists z', signed 4 z' b).
          { unfold enum_sem in ET. apply guard_some in ET as [_ ET]. destruct EM as (ixs & _ & H). cbv zeta in H. destruct H as (_ & _ & _ & _ & _ & _ & ED & EIX).
            rewrite EI in ED, EIX. rewrite ED, EIX in ET. destruct (en_as_ref e); [discriminate|]. unfold indexer_sem in ET.
            apply obind_some in ET as (names & _ & ET). apply obind_some in ET as (index & _ & ET). apply obind_some in ET as (other & _ & ET). apply guard_some in ET as [_ [= <-]].
            inversion A as [ | | | | | | | | | | | | | | | | | | | | | | | | | | |? ? ? ? ? z0' w name ts vv bb SW WD' HN' _ _ AA| | | ]; subst.
            rewrite nth_error_map in HN'. destruct (nth_error (enum_names e) j); [|discriminate]. injection HN' as <- <-. inversion AA; subst. rewrite app_nil_r. eauto. }
          destruct WD as [z' S']. destruct (member_dec z' VALS) as [(a' & Ha' & V')|N].
          * destruct (EV E a' z' Ha' V') as (j' & Pj' & D1' & _). destruct (D1' M) as (yv' & D' & W').
            assert (A' : accepts E Te (RVariant j' []) b) by (apply denotes_accepts with (1 := D'); apply W'; now constructor).
            injection (accepts_fun A A') as <-. apply position_nth in Pj'. pose proof (PI a' j Ha' Pj' eq_refl) as ->.
            rewrite (value_is_fun V V'). now apply xr_enum with a.
          * injection (accepts_fun A (UNK' _ _ S' N)) as <-. pose proof (PI a0 j Ha0 HN eq_refl) as ->.
            rewrite (value_is_fun V0 V) in *. apply xr_unknown with z'; try easy; [split; [now exists a|exact LOW]|]. destruct OK as (_ & _ & _ & RG & _). destruct (RG a Ha) as (z1 & V1 & R1 & _). now rewrite (value_is_fun V V1).
        + intros X. inversion X as [| | | | | | | | | | | |? a' ? ? Ha' V' S|? ? z' ? IX [LZ LO] RZ S NM| | | | | | | |]; subst; [now apply KN|].
          assert (z0 = z) as ->.
          { pose proof (LOW a z Ha V). pose proof (LO a0 z0 Ha0 V0). lia. }
          destruct OK as (_ & _ & _ & _ & INJ). pose proof (INJ a0 a z Ha0 Ha V0 V) as ->.
          assert (i = j) as ->; [|now apply (UNK' z')]. apply position_nth in Pj. rewrite NoDup_nth_error in NN. apply NN; [|congruence].
          apply nth_error_Some. congruence.
      - (* derived *)
        assert (TE : Te = TEnum (map (fun x => (x, VUnit)) (enum_names e))).
        { unfold enum_sem in ET. apply guard_some in ET as [_ ET]. destruct EM as (ixs & _ & H). cbv zeta in H. destruct H as (_ & _ & _ & _ & _ & _ & ED & EIX). rewrite EI in ED, EIX. rewrite ED, EIX in ET.
          destruct (en_as_ref e); [|now injection ET as <-]. destruct (signed_sem e); [now injection ET as <-|discriminate]. }
        intros b. split.
        + intros A. apply xr_enum with a; try easy. apply rfc_enum, W. rewrite TE in A, D.
          inversion A as [ | | | | | | | | | | | | | | | | | | | |? ? ? ? UW LI HN|? ? ? ? ? ? ? UW _ HN|? ? ? ? ? ? ? UW _ HN|? ? ? ? ? ? ? UW _ HN| | | | | | | ]; subst;
            rewrite nth_error_map in HN; destruct (nth_error (enum_names e) j) eqn:Ei; try discriminate.
          inversion D as [| | | | | | | | | | | | | | | | | | |? ? ? HN'|? ? ? ? ? ? HN'|? ? ? ? ? ? HN'|? ? ? ? ? ? HN'| | | | | |]; subst;
            rewrite nth_error_map, Ei in HN'; try discriminate.
          apply rfc_enum. apply signed_unsigned; [lia|easy].
        + intros X. inversion X as [| | | | | | | | | | | |? a' ? ? Ha' V' S|? ? z' ? IX [LZ LO] RZ S NM| | | | | | | |]; subst; [now apply KN|].
          unfold ix in IX. congruence. }
    inversion K as [| | | | | | |? ? l' F' M|? ? l' F' M|? ? l' F' M DN|? ? ? F'|? ? ? F'|? d' ? F' D' _|? d' F' D']; subst;
      try (discriminate (first_fun F F')); pose proof (first_fun F F') as Eq; injection Eq as <- <-.
    1,3: cbn in FS; rewrite FI in FS; injection FS as <-; destruct (env_lookup HE FI) as (T2 & IT2 & LK); cbn in IT2; rewrite ET in IT2; injection IT2 as <-;
      destruct D1 as (yv & D & W); [auto|]; exists (RVariant j []), yv; split; [now apply dn_ref with Te|]; split; [easy|]; intros b; rewrite (accepts_ref _ _ LK), XN; apply PLAIN; auto.
    cbn in FS. unfold find_enum in FS. rewrite FI in FS. cbn in FS. exists (RVariant j []), (XEnum z). split; [now apply D2|]. split; [easy|].
    intros b. rewrite XN. assert (EI : enum_impl_indexer cfg = false) by (destruct (sd_enum_mode SD); congruence). split.
    - intros A.
      assert (WD : exists zs arms z', T = TSigned32 zs arms DErr /\ signed 4 z' b /\ assoc Z.eqb z' arms = Some j).
      { destruct (enum_made_try 0 EM FS) as (zs & arms & -> & _). exists zs, arms.
        inversion A as [ | | | | | | | | | | | | | | | | | | | | | | | | | |? ? ? ? z' ? SG' WD| | | | ]; subst. exists z'. split; [easy|]. split; [easy|].
        destruct (assoc Z.eqb z' arms); [now injection WD as ->|discriminate]. }
      destruct WD as (zs & arms & z' & ET' & S & AS).
      destruct (member_dec z' VALS) as [(a' & Ha' & V')|N].
      + destruct (EV E a' z' Ha' V') as (j' & Pj' & _ & D2'). pose proof (D2' _ FS) as D'.
        assert (A' : accepts E T (RVariant j' []) b) by (apply denotes_accepts with (1 := D'); now constructor).
        injection (accepts_fun A A') as <-. apply position_nth in Pj'. pose proof (PI a' j Ha' Pj' eq_refl) as ->.
        rewrite (value_is_fun V V'). now apply xr_enum with a.
      + exfalso. destruct (enum_made_try z' EM FS) as (zs1 & arms1 & E1 & H). rewrite ET' in E1. injection E1 as <- <-. rewrite (H N) in AS. discriminate.
    - intros X. apply denotes_accepts with (1 := D2 _ FS). apply rfc_enum.
      inversion X as [| | | | | | | | | | | |? a' ? ? Ha' V' S|? ? z' ? IX [LZ LO] RZ S NM| | | | | | | |]; subst; [easy|]. unfold ix in IX. congruence.
  Qed.

  (** ** Arms *)
  Lemma arm_reads d Ts a : arm_types cfg ds f d Ts -> Rd d a ->
    exists vs ys, denotes_all true E Ts vs ys /\ same_wire a (XStruct ys) /\ (length Ts <= 9)%nat /\
      forall b, accepts_all E Ts vs b <-> xread_decl ds dm ix d a b.
  Proof.
    intros [[-> ->]|(k & ty & K & T & H)] [PV P].
    - exists [], []. split; [constructor|]. rewrite (PV eq_refl). split; [apply same_sym, same_void|]. split; [cbn; lia|].
      intros b. rewrite accepts_all_nil. split; [intros ->; constructor|now inversion 1].
    - destruct H as [(KK & T' & ET & ->)|[-> ->]].
      + destruct (P k ty T' K T) as (v & y & D & W & A); [now destruct KK as [->| ->]|].
        exists [v], [y]. split; [constructor; [easy|constructor]|]. split; [apply same_trans with y; [easy|]; apply same_sym, same_one|]. split; [cbn; lia|].
        intros b. now rewrite accepts_one.
      + destruct (dkind_field SD FF K T) as [T' ET]. destruct (P _ _ _ K T ET) as (v & y & D & W & A).
        apply var_field in ET. subst T'. exists [RSeq [v]], [XStruct [y]].
        split; [constructor; [now apply data_struct|constructor]|].
        split; [apply same_trans with y; [easy|]; apply same_sym; eapply same_trans; apply same_one|]. split; [cbn; lia|].
        intros b. now rewrite accepts_one, accepts_data.
  Qed.

  (** ** Unions *)
  Section Union.
    Variables (t : tyspec) (nm : string) (specs : list cspec) (dflt : option decl) (cty : rty).
    Variables (cs : list (ent * variant)) (vs dvs : list variant) (u : union_item).
    Hypothesis UF : union_facts cfg ds t specs dflt cty cs vs dvs u.
    Hypothesis DO : disc_ok cfg ds t (labels specs).
    Let ub := UBody (DVariable t nm) specs dflt.
    Hypothesis UX : union_exact cfg ds ub.
    Hypothesis OA : one_arm ds ub.
    Variables (d a : xv) (z : Z) (arm : decl).
    Hypothesis XD : xtype ds dm t d.
    Hypothesis ND : number_of d z.
    Hypothesis PA : Rd arm a.
    Hypothesis SEL : arm_selected cfg ds specs dflt z arm.

    Lemma union_xread b : xread ds dm ix (TsUnion ub) (XUnion d a) b <->
      exists w b', b = w ++ b' /\ (if dm then xread ds dm ix t d w else rfc d w) /\ xread_decl ds dm ix arm a b'.
    Proof.
      split.
      - assert (LB : forall ls d' lb, In (CaseSpec ls d') specs -> In lb ls -> In lb (labels specs)).
        { intros ls d' lb H1 H2. unfold labels. apply in_flat_map. now exists (CaseSpec ls d'). }
        intros X. unfold ub in X. clear - X XD ND OA SEL UX LB.
        inversion X as [| | | | | | | | | | | | | | |? ? ? ? ? z' ls lb arm' ? w bs M XR N I1 I2 L XA EQ1 EQ2|? ? ? ? z' arm' ? w bs M XR N NL XA|? ? ? ? ? z' ls lb arm' ? w bs M XR RD N I1 I2 L XA| | | |]; subst;
          rewrite <- (number_fun ND N) in *; exists w, bs; (split; [easy|]); rewrite M; rewrite ?M in XR, XA.
        + split; [easy|]. destruct SEL as [(ls2 & lb2 & J1 & J2 & L2)|(_ & _ & NL)].
          * now rewrite <- (OA I1 I2 L J1 J2 L2).
          * exfalso. exact (NL lb (LB _ _ _ I1 I2) L).
        + split; [easy|]. destruct SEL as [(ls2 & lb2 & J1 & J2 & L2)|(_ & [= <-] & _)]; [|easy].
          exfalso. exact (NL lb2 (LB _ _ _ J1 J2) L2).
        + split; [easy|]. destruct SEL as [(ls2 & lb2 & J1 & J2 & L2)|(M' & _ & NL)]; [|unfold dm in M; congruence].
          now rewrite <- (OA I1 I2 L J1 J2 L2).
      - intros (w & b' & -> & H1 & H2). unfold ub. destruct SEL as [(ls2 & lb2 & J1 & J2 & L2)|(M' & ED & NL)].
        + destruct dm eqn:M; [now apply xr_case with z ls2 lb2 arm|now apply xr_exact_case with z ls2 lb2 arm].
        + rewrite ED. fold dm in M'. rewrite M' in *. now apply xr_default with z.
    Qed.

    Lemma union_word b : union_impl_union cfg = false -> (xread ds dm ix (TsUnion ub) (XUnion d a) b <->
      exists w b', b = w ++ b' /\ rfc d w /\ xread_decl ds dm ix arm a b').
    Proof. intros M. rewrite union_xread. unfold dm at 1. now rewrite M. Qed.
    Lemma union_typed b : union_impl_union cfg = true -> (xread ds dm ix (TsUnion ub) (XUnion d a) b <->
      exists w b', b = w ++ b' /\ xread ds dm ix t d w /\ xread_decl ds dm ix arm a b').
    Proof. intros M. rewrite union_xread. unfold dm at 1. now rewrite M. Qed.

    Lemma serde_reads T : union_complement_index cfg = true -> union_sem f u = Some T ->
      exists v y, denotes true E T v y /\ same_wire (XUnion d a) y /\ forall b, accepts E T v b <-> xread ds dm ix (TsUnion ub) (XUnion d a) b.
    Proof.
      intros ci ET. pose proof (complement_not_union ci) as M2.
      destruct (serde_means SD FF UF ci) as (vss & ET' & FV). rewrite ET in ET'. injection ET' as ->.
      destruct SEL as [(vs0 & v & H1 & H2 & H3)|(H & _)]; [|congruence].
      destruct (selected_case UF H1 H2 H3) as (c & Hc & EZ & ED & GE & _).
      destruct GE as (_ & _ & _ & R & R' & _). specialize (R' ci). rewrite EZ in R, R'.
      destruct (uf_cases UF) as [p CF]. destruct (cf_fill CF ci) as (_ & F & _). specialize (F c Hc). rewrite EZ, Z.sub_0_r in F.
      assert (NV : nth_error (un_variants u) (Z.to_nat z) = Some (snd c)).
      { rewrite (uf_variants UF). rewrite nth_error_app1; [easy|]. apply nth_error_Some. congruence. }
      destruct (Forall2_nth FV NV) as (q & Hq & EQ).
      destruct (case_in UF Hc) as [_ (EN & tys & AF & ETY)]. rewrite ED in AF. unfold serde_variant_sem in EQ. rewrite EN, ETY in EQ.
      unfold disc_tys in EQ. rewrite M2 in EQ. cbn [token_id obind app] in EQ.
      assert (DW : same_wire d (XEnum (Z.of_nat (Z.to_nat z)))).
      { rewrite Z2Nat.id by lia. apply same_trans with (XInt z); [|apply same_sym, same_enum_int].
        replace z with (as_i32 z); [now apply (disc_wire XD ND)|]. unfold as_i32. destruct (Z.ltb_spec z (2 ^ 31)); lia. }
      assert (DR : forall w, unsigned 4 (Z.of_nat (Z.to_nat z)) w <-> rfc d w).
      { intros w. rewrite (signed_unsigned w) by lia. rewrite <- rfc_enum. symmetry. apply DW. }
      destruct (arm_serde SD FF ci AF) as [(-> & Ea & Ed)|(ty & T & -> & FT & [[_ Z]|(k & ty' & T' & K & TK & FT' & Z)])].
      - rewrite Ea in EQ. injection EQ as <-. exists (RVariant (Z.to_nat z) []), (XEnum (Z.of_nat (Z.to_nat z))).
        split; [now apply dn_unit_variant with (ename (fst c)); [|lia]|].
        split; [apply same_trans with d; [|easy]; apply same_union_void; rewrite (proj1 PA Ed); apply same_refl|].
        intros b. rewrite (union_word _ M2). split.
        + intros A. inversion A as [ | | | | | | | | | | | | | | | | | | | |? ? ? ? UW LI HN|? ? ? ? ? ? ? UW _ HN|? ? ? ? ? ? ? UW _ HN|? ? ? ? ? ? ? UW _ HN| | | | | | | ]; subst;
            rewrite Hq in HN; try discriminate. exists b, []. rewrite app_nil_r. split; [easy|]. split; [now apply DR|]. rewrite Ed, (proj1 PA Ed). constructor.
        + intros (w & b' & -> & RD & XA). rewrite Ed in XA. inversion XA; subst. rewrite app_nil_r. apply ac_unit_variant with (ename (fst c)); [now apply DR|lia|easy].
      - discriminate.
      - injection Z as <-. rewrite FT in EQ. injection EQ as <-. destruct (proj2 PA _ _ _ K TK FT') as (v' & y & DN & W & AC).
        exists (RVariant (Z.to_nat z) [v']), (XUnion (XEnum (Z.of_nat (Z.to_nat z))) y).
        split; [now apply dn_newtype_variant with (ename (fst c)) T; [|lia|]|]. split; [now apply same_union|].
        intros b. rewrite (union_word _ M2). split.
        + intros A. inversion A as [ | | | | | | | | | | | | | | | | | | | | |? ? ? ? ? ? ? UW _ HN A1|? ? ? ? ? ? ? UW _ HN|? ? ? ? ? ? ? UW _ HN| | | | | | | ]; subst;
            rewrite Hq in HN; try discriminate. injection HN as _ <-. exists w, bs. split; [easy|]. split; [now apply DR|now apply AC].
        + intros (w & b' & -> & RD & XA). apply ac_newtype_variant with (ename (fst c)) T; [now apply DR|lia|easy|now apply AC].
    Qed.

    Lemma indexer_reads T : union_impl_indexer cfg = true -> union_sem f u = Some T ->
      exists v y, denotes true E T v y /\ same_wire (XUnion d a) y /\ forall b, accepts E T v b <-> xread ds dm ix (TsUnion ub) (XUnion d a) b.
    Proof.
      intros M1 ET. assert (M2 : union_impl_union cfg = false) by (destruct (sd_union_mode SD); congruence).
      assert (ci : union_complement_index cfg = false) by (unfold union_complement_index; now rewrite M1).
      destruct (indexer_means SD FF UF M1) as (vss & ET' & NV & FV). rewrite ET in ET'. injection ET' as ->.
      destruct SEL as [(vs0 & v & H1 & H2 & H3)|(H & _)]; [|congruence].
      destruct (selected_case UF H1 H2 H3) as (c & Hc & EZ & ED & _ & _).
      pose proof (nums_small UF Hc) as R. rewrite EZ in R.
      destruct (case_in UF Hc) as [HI (EN & tys & AF & ETY)]. apply In_nth_error in HI as [i HI].
      destruct (Forall2_nth FV HI) as (q & Hq & EQ). rewrite ED in AF. unfold indexer_variant_sem in EQ. rewrite EN, ETY in EQ.
      unfold disc_tys in EQ. rewrite M2 in EQ. cbn [token_id obind app] in EQ.
      destruct (arm_plain SD FF ci AF) as (Ea & _ & Ts & EO & AT). rewrite Ea, EO in EQ. injection EQ as <-.
      destruct (arm_reads AT PA) as (vv & ys & DN & W & L & AC).
      assert (DE : match dflt with Some _ => DVal "Default"%string | None => DErr end = DErr) by (destruct UX as (_ & H & _); now rewrite (H M2)).
      assert (AS : assoc Z.eqb (as_i32 z) (map (fun c => (as_i32 (ez (fst c)), ename (fst c))) cs) = Some (ename (fst c))).
      { apply assocZ_in_nodup; [|apply in_map_iff; exists c; now rewrite EZ].
        rewrite map_map. cbn. destruct (uf_cases UF) as [p CF]. pose proof (cf_nums CF) as N.
        apply NoDup_map_in; [now apply NoDup_map_inv with (1 := N)|]. intros b b' Hb Hb' EB. apply as_i32_inj in EB; [|now apply (nums_small UF)|now apply (nums_small UF)].
        now apply NoDup_map_inj with (1 := N). }
      exists (RVariant i vv), (XUnion (XInt (as_i32 z)) (XStruct ys)). split; [|split].
      - apply dn_indexer with (ename (fst c)) Ts; try easy.
        + apply assoc_in_nodup; [|apply in_map_iff; exists c; now rewrite EZ].
          rewrite map_map. cbn. rewrite <- (map_map fst ename). apply (uf_names UF).
        + now apply as_i32_range.
        + intros _. split; [|easy]. now rewrite AS.
      - apply same_union; [|easy]. now apply (disc_wire XD ND).
      - intros b. rewrite (union_word _ M2). pose proof (disc_wire XD ND R) as DW. split.
        + intros A. inversion A as [ | | | | | | | | | | | | | | | | | | | | | | | | | | |? ? ? ? ? z0 w name ts vv' bb SW WD HN _ _ AA| | | ]; subst.
          rewrite Hq in HN. injection HN as <- <-. exists w, bb. split; [easy|]. split; [|now apply AC].
          apply DW, rfc_int. assert (z0 = as_i32 (ez (fst c))) as <-; [|easy]. rewrite DE in WD. destruct (assoc Z.eqb z0 _) as [n0|] eqn:AS0; [|discriminate]. injection WD as ->.
          apply assocZ_in in AS0. apply in_map_iff in AS0 as (c' & [= <- EC] & Hc'). f_equal. f_equal.
          pose proof (uf_names UF) as N. rewrite map_map in N. now rewrite (NoDup_map_inj (f := fun c => ename (fst c)) N Hc' Hc EC).
        + intros (w & b' & -> & RD & XA). apply DW, rfc_int in RD. apply ac_indexer with (as_i32 z) (ename (fst c)) Ts; try easy; [now rewrite AS| |now apply AC].
          intros k ts' Hk HN. assert (k = i); [|lia]. rewrite NoDup_nth_error in NV. apply NV; [|now rewrite !nth_error_map, Hq, HN].
          rewrite map_length. apply nth_error_Some. congruence.
    Qed.

    Lemma disc_kind : union_impl_union cfg = true -> exists k, tkind cfg ds t k /\ attr_of k = ANone.
    Proof.
      clear d a z arm XD ND PA SEL.
      intros M. destruct (TsBool_dec t) as [Et|NB]; [rewrite Et; exists KPlain; split; [constructor|easy]|].
      assert (H : is_uint ds t \/ exists e y l, t = TsIdent e /\ first e (type_defs ds) (TdEnum y l) /\ (enum_impl_std_trait cfg = true -> dense ds l)).
      { pose proof DO as DO'. unfold disc_ok in DO'. rewrite M in DO'. destruct t; try easy; destruct DO' as (_ & _ & _ & [H|(e & y & l & E' & F & N & H)]); (now left) || (right; eauto 8). }
      destruct H as [H|(e & y & l & -> & F & DN)]; [exists KPlain; split; [now apply uint_kind|easy]|].
      destruct (enum_impl_std_trait cfg) eqn:st.
      - exists KDense. split; [eapply tk_dense; eauto|easy].
      - exists KPlain. split; [eapply tk_enum; eauto|easy].
    Qed.

    Lemma union_reads T : Rt t d -> union_impl_union cfg = true -> union_sem f u = Some T ->
      exists v y, denotes true E T v y /\ same_wire (XUnion d a) y /\ forall b, accepts E T v b <-> xread ds dm ix (TsUnion ub) (XUnion d a) b.
    Proof.
      intros RT M2 ET. assert (ci : union_complement_index cfg = false) by (unfold union_complement_index; now rewrite M2, andb_comm).
      destruct (union_means SD FF UF DO M2) as (vss & dt & names & ET' & DT & NV & FV & FN). rewrite ET in ET'. injection ET' as ->.
      destruct (disc_value SD FF HE UF DO XD ND M2 DT) as (v & y & DN & W & PV). pose proof (assoc_names PV FN) as AN.
      destruct (uf_cases UF) as [p CF].
      assert (DA : forall b, accepts E dt v b <-> xread ds dm ix t d b).
      { destruct (cf_tok CF) as (k0 & K0 & T0). destruct (disc_kind M2) as (k & K & A0). rewrite (proj1 (op_kind ds cfg) _ _ K _ _ T0) in T0.
        assert (FS : field_sem f (attr_of k) cty = Some dt) by (rewrite A0; exact DT).
        destruct (RT k cty dt K T0 FS) as (v' & y' & D' & W' & A').
        assert (v = v') as ->; [|exact A']. apply (denotes_value DN D'). apply same_trans with d; [now apply same_sym|easy]. }
      assert (FIN : forall i name Ts vv ys, nth_error vss i = Some (name, Some Ts) ->
        with_dflt (assoc rval_eqb v names) (match t with TsBool => DErr | _ => match dflt with Some _ => DVal "Default"%string | None => DErr end end) = DVal name ->
        denotes_all true E Ts vv ys -> same_wire a (XStruct ys) -> (length Ts <= 9)%nat -> (forall b, accepts_all E Ts vv b <-> xread_decl ds dm ix arm a b) ->
        exists v y, denotes true E (TUnion vss dt names (match t with TsBool => DErr | _ => match dflt with Some _ => DVal "Default"%string | None => DErr end end)) v y /\
          same_wire (XUnion d a) y /\ forall b, accepts E (TUnion vss dt names (match t with TsBool => DErr | _ => match dflt with Some _ => DVal "Default"%string | None => DErr end end)) v b <->
            xread ds dm ix (TsUnion ub) (XUnion d a) b).
      { intros i name Ts vv ys Hq WD DVV WA L AC. exists (RVariant i (v :: vv)), (XUnion y (XStruct ys)). split; [now apply dn_union with name Ts|]. split; [now apply same_union|].
        intros b. rewrite (union_typed _ M2). split.
        - intros A. inversion A as [ | | | | | | | | | | | | | | | | | | | | | | | | | | | |? ? ? ? ? v0 w name' A0 WD' HN _|? ? ? ? ? v0 w name' ts vv' bb A0 WD' HN _ _ AA| ]; subst.
          rewrite Hq in HN. injection HN as <- <-. exists w, bb. split; [easy|]. split; [|now apply AC]. now apply DA.
        - intros (w & b' & -> & RD & XA). apply ac_union with name Ts; try easy; [now apply DA| |now apply AC].
          intros k ts' Hk HN. assert (k = i); [|lia]. rewrite NoDup_nth_error in NV. apply NV; [|now rewrite !nth_error_map, Hq, HN].
          rewrite map_length. apply nth_error_Some. congruence. }
      destruct SEL as [(vs0 & lv & H1 & H2 & H3)|(_ & ED & NL)].
      - destruct (selected_case UF H1 H2 H3) as (c & Hc & EZ & ED & _ & _).
        destruct (case_in UF Hc) as [HI (EN & tys & AF & ETY)]. apply In_nth_error in HI as [i HI].
        destruct (Forall2_nth FV HI) as (q & Hq & EQ). rewrite ED in AF. unfold union_variant_sem in EQ. rewrite EN, ETY in EQ.
        unfold disc_tys in EQ. rewrite M2 in EQ. cbn [token_id obind app] in EQ.
        destruct (arm_plain SD FF ci AF) as (Ea & _ & Ts & EO & AT). rewrite Ea, EO, rty_eqb_refl in EQ. injection EQ as <-.
        destruct (arm_reads AT PA) as (vv & ys & DVV & WA & L & AC).
        apply (FIN i (ename (fst c)) Ts vv ys); try easy.
        destruct (assoc rval_eqb v names) as [n|]; [|now destruct (AN c Hc)]. destruct AN as (c' & Hc' & EZ' & ->). cbn.
        assert (c' = c) by (apply NoDup_map_inj with (1 := cf_nums CF); [easy|easy|congruence]). now subst c'.
      - pose proof (uf_default UF) as DF. rewrite ED in DF. destruct DF as (tys & EDV & DF).
        assert (HI : nth_error (un_variants u) (length vs) = Some (Variant ANone default_id (disc_tys cfg cty ++ tys))).
        { rewrite (uf_variants UF), EDV. rewrite nth_error_app2, Nat.sub_diag by lia. easy. }
        destruct (Forall2_nth FV HI) as (q & Hq & EQ). unfold union_variant_sem in EQ. cbn in EQ. unfold disc_tys in EQ. rewrite M2 in EQ. cbn [app] in EQ.
        rewrite rty_eqb_refl in EQ. cbn [guard] in EQ.
        assert (AT : exists Ts, omap (ty_sem f) tys = Some Ts /\ arm_types cfg ds f arm Ts).
        { destruct DF as [[-> ->]|(k & ty & K & TK & -> & KU)]; [exists []; split; [easy|now left]|].
          destruct (arm_ty SD FF K TK (KU M2)) as [T' E']. exists [T']. cbn. rewrite E'. split; [easy|]. right. exists k, ty. split; [easy|]. split; [easy|].
          left. split; [now apply KU|eauto]. }
        destruct AT as (Ts & EO & AT). rewrite EO in EQ. injection EQ as <-.
        destruct (arm_reads AT PA) as (vv & ys & DNA & WA & L & AC).
        apply (FIN (length vs) "Default"%string Ts vv ys); try easy.
        destruct (assoc rval_eqb v names) as [n|].
        + exfalso. destruct AN as (c & Hc & EZ & _). destruct (cf_cases CF Hc) as [Lc _]. pose proof (label_entry_in Lc) as I.
          destruct Lc as (_ & _ & _ & V). rewrite EZ in V. now apply (NL (ev (fst c))).
        + destruct (TsBool_dec t) as [Et|NB].
          * exfalso. rewrite Et in *. destruct DO as (_ & _ & B). destruct (B M2) as [B1 B2]. inversion XD; subst d.
            assert (z = if b then 1 else 0) by (destruct ND as [?|[?|[= <-]]]; easy).
            destruct b; subst z; [apply (NL _ B2); right; now left|apply (NL _ B1); now left].
          * assert (TT : forall {A} (a b : A), match t with TsBool => a | _ => b end = b) by (intros; now destruct t).
            rewrite TT. cbn. now rewrite ED.
    Qed.
  End Union.

  (** ** Elements and fields *)
  Lemma all_reads t T xs : (forall x, In x xs -> exists v y, denotes true E T v y /\ same_wire x y /\ forall b, accepts E T v b <-> xread ds dm ix t x b) ->
    exists vs ys, denotes_all true E (repeat T (length xs)) vs ys /\ same_wires xs ys /\
      length vs = length xs /\ length ys = length xs /\ forall b, accepts_all E (repeat T (length xs)) vs b <-> xread_all ds dm ix t xs b.
  Proof.
    intros H. induction xs as [|x xs IH].
    - exists [], []. split; [constructor|]. split; [easy|]. split; [easy|]. split; [easy|]. intros b. cbn. rewrite accepts_all_nil. split; [intros ->; constructor|now inversion 1].
    - destruct (H x (or_introl eq_refl)) as (v & y & D & W & A).
      destruct IH as (vs & ys & DA & WA & L1 & L2 & AA); [intros; apply H; now right|].
      exists (v :: vs), (y :: ys). split; [cbn; now constructor|]. split; [now apply same_cons|]. cbn. rewrite L1, L2. split; [easy|]. split; [easy|].
      intros b. rewrite accepts_all_cons. split.
      + intros (b1 & b2 & -> & A1 & A2). constructor; [now apply A|now apply AA].
      + inversion 1; subst. eexists _, _. split; [reflexivity|]. split; [now apply A|now apply AA].
  Qed.

  Lemma ref_reads n t i T x : first n (type_defs ds) t -> is_typedef t = false -> find_item f (camel n) = Some i ->
    item_sem f i = Some T -> (exists v y, denotes true E T v y /\ same_wire x y /\ forall b, accepts E T v b <-> xread ds dm ix (TsIdent n) x b) ->
    forall T', field_sem f ANone (YName (camel n)) = Some T' -> exists v y, denotes true E T' v y /\ same_wire x y /\ forall b, accepts E T' v b <-> xread ds dm ix (TsIdent n) x b.
  Proof.
    intros F N FI IT (v & y & D & W & A) T' ET. cbn in ET. rewrite FI in ET. injection ET as <-.
    destruct (env_lookup HE FI) as (T2 & IT2 & LK). rewrite IT in IT2. injection IT2 as <-.
    exists v, y. split; [now apply dn_ref with T|]. split; [easy|]. intros b. now rewrite (accepts_ref _ _ LK).
  Qed.

  Lemma fields_reads x l fds : Forall2 (field_facts cfg ds x) l fds -> forall xs ts, Forall2 Rd l xs ->
    Forall2 (fun fd (q : string * ty) => field_sem f (fd_attr fd) (fd_ty fd) = Some (snd q)) fds ts ->
    exists vs ys, denotes_all true E (map snd ts) vs ys /\ same_wires xs ys /\ forall b, accepts_all E (map snd ts) vs b <-> xread_fields ds dm ix l xs b.
  Proof.
    induction 1 as [|d fd l fds FD F IH]; intros xs ts P S; inversion P as [|? x1 ? xs1 P1 P2]; inversion S as [|? q ? ts1 S1 S2]; subst.
    - exists [], []. split; [constructor|]. split; [easy|]. intros b. cbn. rewrite accepts_all_nil. split; [intros ->; constructor|now inversion 1].
    - destruct (IH _ _ P2 S2) as (vs & ys & D & W & AA).
      assert (H : exists v y, denotes true E (snd q) v y /\ same_wire x1 y /\ forall b, accepts E (snd q) v b <-> xread_decl ds dm ix d x1 b).
      { destruct FD as (k & nm & ty & K & _ & _ & T & _ & EA & FT). destruct FT as [[_ ET]|(ET & _ & ->)]; rewrite EA, ET in S1.
        - exact (proj2 P1 _ _ _ K T S1).
        - cbn in S1. destruct (ty_sem f ty) as [T'|] eqn:E'; [|discriminate]. injection S1 as S1.
          destruct (proj2 P1 _ _ T' K T E') as (v & y & DV & WV & AV). exists v, y. rewrite <- S1. split; [now apply dn_box|]. split; [easy|]. intros b. now rewrite accepts_box. }
      destruct H as (v & y & DV & WV & AV). exists (v :: vs), (y :: ys). split; [cbn; now constructor|]. split; [now apply same_cons|].
      intros b. cbn. rewrite accepts_all_cons. split.
      + intros (b1 & b2 & -> & A1 & A2). constructor; [now apply AV|now apply AA].
      + inversion 1; subst. eexists _, _. split; [reflexivity|]. split; [now apply AV|now apply AA].
  Qed.

  Definition rshape (t : tyspec) (x : xv) : Prop :=
    match t with
    | TsStruct l => exists xs, x = XStruct xs /\ Forall2 Rd l xs
    | TsEnum l => exists a z, In a l /\ value_is ds (as_value a) z /\ x = XEnum z
    | TsUnion (UBody c specs dflt) => exists t y d z arm a, c = DVariable t y /\ x = XUnion d a /\
        xtype ds dm t d /\ number_of d z /\ Rt t d /\ Rd arm a /\ arm_selected cfg ds specs dflt z arm
    | _ => True
    end.

  Ltac prim := split; [|easy]; intros k ty T K TK FS; inversion K; subst; inversion TK; subst; cbn in FS; injection FS as <-.
  Ltac xri := split; [intros A; inversion A; subst|intros X; inversion X; subst].

  Lemma reads :
    (forall t x, xtype ds dm t x -> Rt t x /\ rshape t x) /\ (forall d x, xdecl ds dm d x -> Rd d x) /\
    (forall t xs, xall ds dm t xs -> Forall (Rt t) xs) /\ (forall l xs, xfields ds dm l xs -> Forall2 Rd l xs).
  Proof.
    apply xtype_xdecl_ind.
    - intros z R. prim. exists (RInt z), (XInt z). split; [now apply dn_int|]. split; [easy|]. intros b. rewrite accepts_signed by auto. split; [constructor; easy|now inversion 1].
    - intros z R. prim. exists (RInt z), (XUInt z). split; [now apply dn_int|]. split; [easy|]. intros b. rewrite accepts_unsigned by auto. split; [constructor; easy|now inversion 1].
    - intros z R. prim. exists (RInt z), (XHyper z). split; [now apply dn_int|]. split; [easy|]. intros b. rewrite accepts_signed by auto. split; [constructor; easy|now inversion 1].
    - intros z R. prim. exists (RInt z), (XUHyper z). split; [now apply dn_int|]. split; [easy|]. intros b. rewrite accepts_unsigned by auto. split; [constructor; easy|now inversion 1].
    - intros z R. prim. exists (RFloat z), (XFloat z). split; [now apply dn_f32|]. split; [easy|]. intros b. split; inversion 1; now constructor.
    - intros z R. prim. exists (RFloat z), (XDouble z). split; [now apply dn_f64|]. split; [easy|]. intros b. split; inversion 1; now constructor.
    - intros b. prim. exists (RBool b), (XUInt (if b then 1 else 0)). split; [constructor|]. split; [apply same_enum_uint; destruct b; lia|].
      intros c. destruct b; split; inversion 1; subst; try (now constructor); now econstructor; eauto.
    - intros z R. prim. exists (RInt z), (XInt z). split; [now apply dn_int|]. split; [easy|]. intros b. rewrite accepts_low by auto. split; [intros []; now constructor|now inversion 1].
    - intros z R. prim. exists (RInt z), (XUInt z). split; [now apply dn_int|]. split; [easy|]. intros b. rewrite accepts_low by auto. split; [intros []; now constructor|now inversion 1].
    - intros z R. prim. exists (RInt z), (XInt z). split; [now apply dn_int|]. split; [easy|]. intros b. rewrite accepts_low by auto. split; [intros []; now constructor|now inversion 1].
    - intros z R. prim. exists (RInt z), (XUInt z). split; [now apply dn_int|]. split; [easy|]. intros b. rewrite accepts_low by auto. split; [intros []; now constructor|now inversion 1].
    - intros l a z H V R. split; [intros k ty T K; inversion K|]. cbn. eauto.
    - intros l xs _ H. split; [intros k ty T K; inversion K|]. cbn. eauto.
    - intros t y specs dflt d z vs v arm a XD [RT _] N H1 H2 L _ PA. split; [intros k ty T K; inversion K|]. cbn.
      exists t, y, d, z, arm, a. repeat split; try easy; try apply PA. left. eauto.
    - intros t y specs d z arm a DM XD [RT _] N L _ PA. split; [intros k ty T K; inversion K|]. cbn.
      exists t, y, d, z, arm, a. repeat split; try easy; try apply PA. right. eauto.
    - intros n d x F _ [_ P]. split; [|easy]. intros k ty T K TK FS.
      assert (D : dtok ds d ty (op_of k)).
      { inversion TK as [| | | | | | |? td F1 N1|? d' ? ? F1 D1]; subst; [rewrite <- (first_fun F F1) in N1; discriminate|].
        pose proof (first_fun F F1) as Eq. injection Eq as <-. easy. }
      assert (XN : forall b, xread ds dm ix (TsIdent n) x b <-> xread_decl ds dm ix d x b).
      { intros b. split; [|intros X; eapply xr_typedef; eauto]. intros X.
        inversion X as [| | | | | | | | | | | | | | | | | |? ? ? ? F' X'|? ? ? ? ? F'|? ? ? ? ? F'|? ? ? ? ? F']; subst; pose proof (first_fun F F') as EQ; try discriminate.
        now injection EQ as <-. }
      assert (Q : forall k0, dkind cfg ds d k0 -> dtok ds d ty (op_of k0) -> field_sem f (attr_of k0) ty = Some T ->
        exists v y, denotes true E T v y /\ same_wire x y /\ forall b, accepts E T v b <-> xread ds dm ix (TsIdent n) x b).
      { intros k0 K0 TK0 FS0. destruct (P k0 ty T K0 TK0 FS0) as (v & y & D0 & W0 & A0). exists v, y. split; [easy|]. split; [easy|]. intros b. now rewrite XN. }
      inversion K as [| | | | | | |? ? ? F'|? ? ? F'|? ? ? F'|? ? ? F'|? ? ? F'|? d' ? F' D' _|? d' F' D']; subst;
        try (discriminate (first_fun F F')); pose proof (first_fun F F') as Eq; injection Eq as <-.
      + now apply (Q k).
      + now apply (Q KDense).
    - (* an enum *)
      intros n y l x F _ [_ (a & z & Ha & V & ->)]. split; [|easy]. exact (enum_reads F Ha V).
    - (* a struct *)
      intros n y l x F _ [_ (xs & -> & P)]. split; [|easy]. intros k ty T K TK FS.
      pose proof (item_named F eq_refl TK) as ->.
      assert (EK : attr_of k = ANone).
      { inversion K as [| | | | | | |? ? ? F'|? ? ? F'|? ? ? F'|? ? ? F'|? ? ? F'|? d' ? F' D' _|? d' F' D']; subst;
          try (discriminate (first_fun F F')); easy. }
      rewrite EK in FS. destruct (find_item_of SD FF F eq_refl) as (i & _ & FI & _ & _ & s & -> & SF).
      destruct (struct_means SD FF SF) as (ts & ES & FT).
      eapply (ref_reads F eq_refl FI); [exact ES| |exact FS].
      destruct (fields_reads SF P FT) as (vs & ys & D & W & A). exists (RSeq vs), (XStruct ys). split; [now apply dn_struct|]. split; [now apply same_struct|].
      intros b. split.
      + intros A0. inversion A0; subst. eapply xr_name_struct; [exact F|]. constructor. now apply A.
      + intros X. inversion X as [| | | | | | | | | | | | | | | | | |? ? ? ? F'|? ? ? ? ? F'|? ? ? ? ? F' X'|? ? ? ? ? F']; subst; pose proof (first_fun F F') as EQ; try discriminate.
        injection EQ as <- <-. inversion X'; subst. apply ac_struct. now apply A.
    - (* a union *)
      intros n y u x F _ [_ S]. split; [|easy]. intros k ty T K TK FS.
      pose proof (item_named F eq_refl TK) as ->.
      assert (EK : attr_of k = ANone).
      { inversion K as [| | | | | | |? ? ? F'|? ? ? F'|? ? ? F'|? ? ? F'|? ? ? F'|? d' ? F' D' _|? d' F' D']; subst;
          try (discriminate (first_fun F F')); easy. }
      rewrite EK in FS. pose proof (sd_items SD (first_in F)) as SU. pose proof (supported_one_arm SU) as OA. pose proof (EX (first_in F)) as UX. cbn in UX.
      destruct u as [c specs dflt]. destruct S as (t & nm & d & z & arm & a & -> & -> & XD & ND & RT & PA & SEL).
      destruct SU as (_ & (t' & nm' & Ec & DO) & _). injection Ec as <- <-.
      destruct (find_item_of SD FF F eq_refl) as (i & HI & FI & IF). pose proof IF as (_ & _ & ui & -> & t' & nm' & cty & cs & vs & dvs & Ec & UF). injection Ec as <- <-.
      destruct (env_lookup HE FI) as (T2 & IT & LK).
      eapply (ref_reads F eq_refl FI); [exact IT| |exact FS]. cbn in IT.
      assert (XN : forall b, xread ds dm ix (TsIdent n) (XUnion d a) b <-> xread ds dm ix (TsUnion (UBody (DVariable t nm) specs dflt)) (XUnion d a) b).
      { intros b. split; [|intros X; eapply xr_name_union; eauto]. intros X.
        inversion X as [| | | | | | | | | | | | | | | | | |? ? ? ? F'|? ? ? ? ? F'|? ? ? ? ? F'|? ? ? ? ? F' X']; subst; pose proof (first_fun F F') as EQ; try discriminate.
        now injection EQ as <- <-. }
      assert (Q : (exists v y, denotes true E T2 v y /\ same_wire (XUnion d a) y /\ forall b, accepts E T2 v b <-> xread ds dm ix (TsUnion (UBody (DVariable t nm) specs dflt)) (XUnion d a) b) ->
        exists v y, denotes true E T2 v y /\ same_wire (XUnion d a) y /\ forall b, accepts E T2 v b <-> xread ds dm ix (TsIdent n) (XUnion d a) b).
      { intros (v & y0 & D0 & W0 & A0). exists v, y0. split; [easy|]. split; [easy|]. intros b. now rewrite XN. }
      apply Q. destruct (union_modes cfg) as [M1|[M2|ci]].
      + exact (indexer_reads UF UX OA XD ND PA SEL M1 IT).
      + exact (union_reads UF DO UX OA XD ND PA SEL RT M2 IT).
      + exact (serde_reads UF UX OA XD ND PA SEL ci IT).
    - intros t y x _ [P _]. split; [easy|]. intros k ty T K TK FS. inversion K; subst. inversion TK; subst.
      destruct (P k ty T) as (v & y0 & D0 & W0 & A0); try easy. exists v, y0. split; [easy|]. split; [easy|]. intros b. rewrite A0. split; [now constructor|now inversion 1].
    - intros t y v xs V _ P. split; [easy|]. intros k ty T K TK FS.
      inversion K as [|? ? c z Kt SF R| | | | | ]; subst. inversion TK as [|? ? ? len ty' op' Ht L| | | | | |]; subst.
      inversion L as [? z' S'|]; subst. inversion V as [? ? V'| |]; subst. rewrite (stands_fun S' SF) in *. rewrite (stands_fun V' SF) in *.
      cbn [attr_of field_sem ty_sem] in FS. destruct (ty_sem f ty') as [T'|] eqn:ET; [|discriminate]. cbn [obind] in FS.
      destruct (array_len f (TokNum z) false) as [m|] eqn:EL; [|discriminate]. injection FS as <-. apply array_num in EL as [_ ->].
      destruct (@all_reads t T' xs) as (vs & ys & D & W & L1 & L2 & A).
      { intros x Hx. rewrite Forall_forall in P. exact (P x Hx _ _ _ Kt Ht ET). }
      assert (LZ : Z.to_nat z = length xs) by (pose proof (stands_fun V' SF) as EZ; unfold zlen in EZ; lia). rewrite LZ.
      exists (RSeq vs), (XFArray ys). split; [now apply dn_array|]. split; [now apply same_farray|]. intros b. split.
      + intros A0. inversion A0; subst. apply xrd_array; [|now apply A]. now rewrite (stands_fun V' SF).
      + intros X. inversion X; subst. apply ac_array. now apply A.
    - intros t y max xs Wi _ P. split; [easy|]. intros k ty T K TK FS. rewrite Forall_forall in P.
      inversion K as [| |? ? ? k' Kt KK| | | | ]; subst. cbn [op_of attr_of] in TK, FS.
      assert (Q : forall T', (forall x, In x xs -> exists v y, denotes true E T' v y /\ same_wire x y /\ forall b, accepts E T' v b <-> xread ds dm ix t x b) -> T = TSeq T' ->
         exists v y0, denotes true E T v y0 /\ same_wire (XArray xs) y0 /\ forall b, accepts E T v b <-> xread_decl ds dm ix (DVariableArray t y max) (XArray xs) b).
      { intros T' H ->. destruct (all_reads H) as (vs & ys & D & W & L1 & L2 & A).
        assert (LZ : zlen vs = zlen xs) by (unfold zlen; now rewrite L1).
        exists (RSeq vs), (XArray ys). split; [apply dn_seq; [rewrite LZ; apply Wi|]; now rewrite L1|]. split; [now apply same_array|].
        intros b. split.
        - intros A0. inversion A0 as [ | | | | | | | | | | | | | |? ? n bs UN AA| | | | | | | | | | | | | | | | ]; subst. rewrite L1 in AA. rewrite LZ in UN. constructor; [easy|easy|now apply A].
        - intros X. inversion X as [| |? ? ? ? n bs WI UN XA| | | | | | ]; subst. apply ac_seq; [now rewrite LZ|]. rewrite L1. now apply A. }
      inversion TK as [| |? ? ? ty' Ht|? ? ? ty' op' Ht NV| | | |]; subst.
      + injection FS as <-. apply (Q TVariableArray); [|easy]. intros x Hx.
        assert (k' = KVar) as ->.
        { destruct KK as [->| ->]; [|easy]. pose proof (proj1 (kind_sem (IN SD) (find_enum_facts SD FF) (const_means SD FF)) t KPlain Kt ty' _ Ht) as [H _]. discriminate H. }
        destruct (tkind_field SD FF Kt Ht) as [T' ET]. destruct (P x Hx _ _ _ Kt Ht ET) as (v & y' & D & W & A).
        apply var_field in ET. subst T'. exists (RSeq [v]), (XStruct [y']). split; [now apply data_struct|].
        split; [apply same_trans with y'; [easy|]; apply same_sym, same_one|]. intros b. now rewrite accepts_data.
      + pose proof (proj1 (kind_sem (IN SD) (find_enum_facts SD FF) (const_means SD FF)) t k' Kt ty' _ Ht) as [HO _].
        assert (k' = KPlain) as -> by (destruct KK as [->| ->]; [easy|discriminate HO]).
        cbn in FS. destruct (ty_sem f ty') as [T'|] eqn:ET; [|discriminate]. injection FS as <-. apply (Q T'); [|easy].
        intros x Hx. exact (P x Hx _ _ _ Kt Ht ET).
    - intros y v bs V. split; [easy|]. intros k ty T K TK FS. inversion K as [| | |? ? L| | | ]; subst. inversion TK as [| | | |? ? len LT| | |]; subst.
      cbn [attr_of field_sem] in FS. destruct (array_len f len true) as [m|] eqn:EL; [|discriminate]. injection FS as <-.
      destruct (len_sem (IN SD) (find_enum_facts SD FF) (const_means SD FF) L LT) as (z & V' & R & EL'). rewrite EL in EL'. injection EL' as ->.
      rewrite (value_is_fun V' V) in *. assert (LB : length bs = Z.to_nat (zlen bs)) by (unfold zlen; lia).
      exists (RBytes bs), (XFOpaque bs). split; [now apply dn_fopaque|]. split; [easy|].
      intros b. split.
      + intros A. inversion A; subst. now constructor.
      + intros X. inversion X; subst. now constructor.
    - intros y max bs Wi. split; [easy|]. intros k ty T K TK FS. inversion K; subst. inversion TK; subst. injection FS as <-.
      exists (RBytes bs), (XOpaque bs). split; [apply dn_opaque, Wi|]. split; [easy|]. intros b. split; inversion 1; subst; now constructor.
    - intros y max bs U Wi. split; [easy|]. intros k ty T K TK FS. inversion K; subst. inversion TK; subst. injection FS as <-.
      exists (RStr bs), (XString bs). split; [apply dn_str; [easy|apply Wi]|]. split; [easy|]. intros b. split; inversion 1; subst; now constructor.
    - intros t y. split; [easy|]. intros k ty T K TK FS. inversion K; subst. inversion TK; subst. cbn in FS.
      destruct (ty_sem f ty0) as [T'|]; [|discriminate]. injection FS as <-. exists RNone, XNone. split; [constructor|]. split; [easy|]. intros b. split; inversion 1; subst; now constructor.
    - intros t y x _ [P _]. split; [easy|]. intros k ty T K TK FS. inversion K as [| | | | | |? ? Kt]; subst. inversion TK as [| | | | | | |? ? ty' op' Ht]; subst. cbn in FS.
      destruct (ty_sem f ty') as [T'|] eqn:ET; [|discriminate]. injection FS as <-. destruct (P _ _ _ Kt Ht ET) as (v & y' & D & W & A).
      exists (RSome v), (XSome y'). split; [now constructor|]. split; [now apply same_some|]. intros b. split.
      + inversion 1; subst. eapply xrd_some; eauto. now apply A.
      + inversion 1; subst. eapply ac_some; eauto. now apply A.
    - split; [easy|]. intros k ty T K. inversion K.
    - constructor.
    - intros t x xs _ [P _] _ PS. now constructor.
    - constructor.
    - intros d l x xs _ P _ PS. now constructor.
  Qed.
End Reads.


(** what is read is a value of the type *)
Lemma read_values ds um ix :
  (forall t x b, xread ds um ix t x b -> xtype ds um t x) /\ (forall d x b, xread_decl ds um ix d x b -> xdecl ds um d x) /\
  (forall t xs b, xread_all ds um ix t xs b -> xall ds um t xs) /\ (forall l xs b, xread_fields ds um ix l xs b -> xfields ds um l xs).
Proof.
  apply xread_decl_ind4; try (intros; now constructor); try (intros; now econstructor; eauto).
  - intros z w S. constructor. exact (signed_range (k := 4) ltac:(lia) S).
  - intros z w S. constructor. exact (unsigned_range S).
  - intros z w S. constructor. exact (signed_range (k := 8) ltac:(lia) S).
  - intros z w S. constructor. exact (unsigned_range S).
  - intros z w S. constructor. exact (unsigned_range S).
  - intros z w S. constructor. exact (unsigned_range S).
  - intros w _. exact (xt_bool ds um false).
  - intros z w _ _. exact (xt_bool ds um true).
  - intros l a z w H V S. apply xt_enum with a; try easy. exact (signed_range (k := 4) ltac:(lia) S).
  - intros l z z' w _ [(a & H & V) _] R _ _. now apply xt_enum with a.
Qed.

Section Top.
  Variables (cfg : config) (ds : list definition).
  Hypothesis SD : supported_defs cfg ds.
  Hypothesis EX : exact_defs cfg ds.
  Variables (f : file) (E : env).
  Hypothesis GE : generated cfg ds f E.
  Let ds' := map def_without_max ds.
  Let SD' := supported_max SD.
  Let GE' := generated_max GE.
  Variables (x : string) (td : typedef).
  Hypothesis F : first x (type_defs ds) td.
  Hypothesis N : is_typedef td = false.
  Hypothesis EN : forall y l, td = TdEnum y l -> enum_impl_std_trait cfg = false \/ dense ds l.

  Lemma reads_value xval : xtype ds' (union_impl_union cfg) (TsIdent x) xval -> exists v, speaks E (TRef (camel x)) v xval /\
    forall bs, accepts E (TRef (camel x)) v bs <-> xread ds' (union_impl_union cfg) (enum_impl_indexer cfg) (TsIdent x) xval bs.
  Proof.
    intros X. pose proof (first_max F) as F'. pose proof (file_of SD' GE') as FF'.
    assert (N' : is_typedef (type_without_max td) = false) by now destruct td.
    assert (K : exists k, tkind cfg ds' (TsIdent x) k /\ attr_of k = ANone).
    { destruct td as [d|y l|y l|y u]; [discriminate| | |]; cbn in F'.
      - destruct (enum_impl_std_trait cfg) eqn:st.
        + exists KDense. split; [|easy]. eapply tk_dense; eauto. destruct (EN eq_refl) as [|D]; [easy|now apply dense_max].
        + exists KPlain. split; [|easy]. eapply tk_enum; eauto.
      - exists KPlain. split; [|easy]. eapply tk_struct; eauto.
      - exists KPlain. split; [|easy]. eapply tk_union; eauto. }
    destruct K as (k & K & A). destruct (proj1 (tok_total cfg ds') _ _ K) as [ty TK].
    pose proof (item_named F' N' TK) as ->. destruct (find_item_of SD' FF' F' N') as (i & _ & FI & _).
    assert (FS : field_sem f (attr_of k) (YName (camel x)) = Some (TRef (camel x))) by (rewrite A; cbn; now rewrite FI).
    destruct (proj1 (proj1 (reads SD' (proj1 GE') FF' (proj2 GE') (exact_max EX)) _ _ X) k _ _ K TK FS) as (v & y & D & W & AC).
    exists v. split; [now apply speaks_denotes with y|exact AC].
  Qed.

  Lemma read_sound n bs v : from_bytes n E (TRef (camel x)) bs = Ok v ->
    exists xval, xread ds' (union_impl_union cfg) (enum_impl_indexer cfg) (TsIdent x) xval bs /\ speaks E (TRef (camel x)) v xval.
  Proof.
    intros H. destruct (d_value SD EX GE F N EN H) as (xval & X & S). exists xval. split; [|easy].
    destruct (reads_value X) as (v' & S' & A). apply A.
    assert (v = v') as <-; [|now apply (@from_bytes_inv n)].
    destruct S as [(b & R) S], S' as [_ S']. destruct (S b R) as [_ S1], (S' b R) as [_ S2]. exact (returns_ok_inj S1 S2).
  Qed.

  Lemma read_complete xval bs : xread ds' (union_impl_union cfg) (enum_impl_indexer cfg) (TsIdent x) xval bs ->
    exists v, returns (fun n => from_bytes n E (TRef (camel x)) bs) (Ok v) /\ speaks E (TRef (camel x)) v xval.
  Proof.
    intros R. destruct (reads_value (proj1 (read_values _ _ _) _ _ _ R)) as (v & S & A). exists v. split; [|easy].
    apply from_bytes_accepted. now apply A.
  Qed.
End Top.
