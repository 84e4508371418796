(** The default values of generated enums and unions. *)
From Coq Require Import Permutation.
From Verif Require Import Base SpecUtf8 RustTypes SpecXdr SpecTypes XdrFacts SpecMisc SerModel DeModel SpecDecode EncProofs RvalFacts DecProofs CodecProofs CodecLemmas
  Nom NomFacts Keyword Ast ParserModel SpecGrammar SpecParse
  ParseSound ParserLemmas ConstProofs CaseModel SpecCase CaseProofs RustAst GenModel SpecGen SpecItems GenFacts GenTotal GenPanic GenLemmas
  SpecXdl GenSem SpecWire WireBase WireEnum WireTok WireStruct WireUnion WireFile WireSem WireMain WireBack WireEnums WireLemmas SpecEmit EmitBase EmitProofs EmitFlags EmitItems EmitNames EmitRun EmitNorm EmitStop EmitSize
  DefaultModel DefaultProofs SpecDefault.
Set Implicit Arguments.
Unset Strict Implicit.
Local Open Scope list_scope.

(** ** Enums *)
Lemma position_le x l k m : position x (l ++ x :: m) = Some k -> (k <= length l)%nat.
Proof.
  revert k. induction l as [|y l IH]; cbn; intros k H.
  - rewrite String.eqb_refl in H. injection H as <-. lia.
  - destruct (String.eqb x y); [injection H as <-; lia|]. destruct (position x _) as [j|]; [|discriminate]. injection H as <-. specialize (IH _ eq_refl). lia.
Qed.

Lemma enum_head cx n x l e : convert_enum_token cx n x l = GOk e ->
  exists z rest, (exists fill vs, en_values e = fill ++ (en_default e, z) :: vs /\ (length fill <= Z.to_nat z)%nat) /\
    let items := (en_default e, z) :: rest in
    (forall asr, en_as_ref e = Some asr -> asr = items) /\
    (forall tf, en_try_from e = Some tf -> tf = map (fun p => (snd p, fst p)) items) /\
    (forall ix, en_indexer e = Some ix -> ix = IndexerImpl (map (fun p => (snd p, TokId (fst p))) items) (Some (TokId (en_default e)))
       (map (fun p => (TokId (fst p), false, snd p)) items) false).
Proof.
  intros H. unfold convert_enum_token in H. apply gbind_ok in H as (idx & _ & H). cbv zeta in H.
  apply gbind_ok in H as (nm & _ & H). apply gbind_ok in H as (vs & HV & H). apply gbind_ok in H as (items & HI & H). apply gmap_ok in HI.
  destruct (sort_by fst idx) as [|[z y] srt]; inversion HI as [|? [d z'] ? rest h HI' E1 E2]; subst; [discriminate|].
  cbn [fst snd] in h. apply gbind_ok in h as (c & Hc & h). injection h as -> ->. injection H as <-.
  exists z', rest. cbn [en_values en_default en_as_ref en_try_from en_indexer]. split.
  - cbn [enum_values] in HV. apply gbind_ok in HV as (fill & HF & HV). rewrite Hc in HV. cbn [gbind] in HV.
    apply gbind_ok in HV as (s' & _ & HV). apply gbind_ok in HV as (vs' & _ & HV). injection HV as <-. exists fill, vs'. split; [easy|].
    destruct (enum_complement_index _).
    + apply gmap_ok in HF. rewrite <- (Forall2_length' HF). unfold zrange. rewrite map_length, seq_length. lia.
    + injection HF as <-. cbn. lia.
  - cbv zeta. split; [|split].
    + intros asr K. destruct (enum_impl_std_trait _); congruence.
    + intros tf K. destruct (enum_impl_std_trait _); [|discriminate]. now injection K as <-.
    + intros ix K. destruct (enum_impl_indexer _); [|discriminate]. injection K as <-. f_equal. cbn. now rewrite map_map.
Qed.

Section File.
  Variables (cfg : config) (ds : list definition) (n : nat) (f : file) (E : env).
  Hypothesis G : gen_code n cfg ds = GOk f.
  Hypothesis CO : compiles f.

  Lemma enum_start e : In (IEnum e) (fi_types f) -> enum_starts E e.
  Proof.
    intros Hi T i S P.
    assert (He : In e (enums f)) by (apply in_flat_map; exists (IEnum e); split; [easy|now left]).
    destruct (enum_item_from G He) as (x & y & l & _ & C). destruct (enum_head C) as (z & rest & (fill & vs & EV & LF) & AR & TF & IX).
    destruct (compiled CO Hi) as (NN & _ & _ & RG).
    assert (RZ : i32_range z).
    { rewrite Forall_forall in RG. assert (K : In z (map snd (en_values e))) by (rewrite EV, map_app; apply in_or_app; right; now left).
      apply RG in K. unfold i32_range. lia. }
    assert (LI : Z.of_nat i < 2 ^ 31).
    { unfold enum_names in P. rewrite EV, map_app in P. apply position_le in P. rewrite map_length in P. unfold i32_range in RZ. lia. }
    pose proof (position_nth P) as NP.
    assert (PL : supported E (TEnum (map (fun x => (x, VUnit)) (enum_names e))) (RVariant i [])).
    { eexists. apply dn_unit_variant with (en_default e); [|easy]. now rewrite nth_error_map, NP. }
    destruct S as [S|S].
    - unfold enum_sem in S. apply guard_some in S as [_ S].
      destruct (en_derive e); try discriminate; destruct (en_indexer e) as [ix|] eqn:EX; try discriminate; destruct (en_as_ref e); try discriminate.
      + apply obind_some in S as (? & _ & S). now injection S as <-.
      + now injection S as <-.
      + rewrite (IX _ eq_refl) in S. unfold indexer_sem in S. cbn [ix_names ix_index ix_other] in S.
        apply obind_some in S as (names & HN & S). apply obind_some in S as (index & HI & S). apply obind_some in S as (other & HO & S).
        apply guard_some in S as [_ S]. injection S as <-.
        cbn [map omap fst snd] in HN, HI. apply obind_some in HN as (p & HP & HN). injection HP as <-. apply obind_some in HN as (ps & _ & HN). injection HN as <-.
        apply obind_some in HI as (q & HQ & HI). cbn [token_id obind] in HQ. apply obind_some in HQ as (ts & _ & HQ). apply guard_some in HQ as [_ HQ]. injection HQ as <-.
        apply obind_some in HI as (qs & _ & HI). injection HI as <-.
        exists (XUnion (XInt z) (XStruct [])). apply dn_indexer with (en_default e) []; try easy.
        * rewrite map_map. cbn. now rewrite map_id.
        * now rewrite nth_error_map, NP.
        * cbn. now rewrite String.eqb_refl.
        * intros _. cbn. rewrite Z.eqb_refl. split; [easy|lia].
        * constructor.
    - unfold signed_sem in S. destruct (en_as_ref e) as [asr|]; [|discriminate]. destruct (en_try_from e) as [tf|]; [|discriminate].
      rewrite (AR _ eq_refl), (TF _ eq_refl) in S. apply obind_some in S as (zs & HZ & S). apply obind_some in S as (arms & HA & S).
      apply guard_some in S as [_ S]. injection S as <-. exists (XEnum z). apply dn_signed32; [|easy|].
      + apply omap_some in HZ. destruct (Forall2_nth HZ NP) as (w & Hw & EW). cbn in EW. rewrite String.eqb_refl in EW. congruence.
      + intros _. cbn [map omap fst snd] in HA. rewrite P in HA. cbn in HA. apply obind_some in HA as (ps & _ & HA). injection HA as <-.
        cbn. now rewrite Z.eqb_refl.
  Qed.

  (** ** Unions *)
  Definition headed (p : union_parts) : Prop :=
    match up_default p with
    | None => up_names p = [] /\ up_index p = []
    | Some (nm, _) => exists z paren ns ix, up_names p = (z, nm) :: ns /\ up_index p = (nm, paren, z) :: ix /\ i32_range z
    end.
  Lemma headed_add p nm paren z k specs vals cd : headed p -> i32_range z ->
    headed (UnionParts specs (up_names p ++ [(z, nm)]) (up_index p ++ [(nm, paren, z)]) vals (opt_first (up_default p) (Some (nm, k))) cd).
  Proof.
    unfold headed. cbn. destruct (up_default p) as [[nm' k']|]; cbn.
    - intros (z' & p' & ns & ix & -> & -> & R) _. cbn. eauto 8.
    - intros [-> ->] R. cbn. eauto 8.
  Qed.
  Lemma values_headed cx k c : forall l s acc p, union_values cx k c s l acc = GOk p -> headed acc ->
    (forall q, In q l -> 0 <= fst (fst q) < 2 ^ 32) -> headed p.
  Proof.
    induction l as [|[[e d] v] l IH]; intros s acc p H N R; cbn [union_values] in H; [now injection H as <-|].
    apply gbind_ok in H as (fill & HF & H). apply gbind_ok in H as (ct & HC & H). apply gbind_ok in H as (bv & HB & H).
    apply gbind_ok in H as (s' & HS & H). apply IH in H; [exact H| |intros q Hq; apply R; now right].
    apply headed_add; [easy|]. apply as_i32_range. apply (R _ (or_introl eq_refl)).
  Qed.
  Lemma bool_headed cx k c b specs acc p : bool_case cx k c b specs acc = GOk p -> headed acc -> headed p.
  Proof.
    unfold bool_case. cbv zeta. intros H N. destruct (find _ specs) as [[vs d]|].
    - destruct (find _ vs) as [v|]; [|discriminate]. apply gbind_ok in H as (ct & HC & H). injection H as <-.
      apply headed_add; [easy|]. unfold i32_range. destruct b; lia.
    - destruct (union_complement_index _); [|now injection H as <-]. apply gbind_ok in H as (r & HR & H). now injection H as <-.
  Qed.
  Lemma union_head cx k x c specs u ix : convert_union_token cx k x (UBody c specs None) = GOk u -> un_indexer u = Some ix ->
    exists z paren ns is, ix = IndexerImpl ((z, fst (un_default u)) :: ns) None ((fst (un_default u), paren, z) :: is) false /\ i32_range z.
  Proof.
    intros C EX. unfold convert_union_token in C. apply gbind_ok in C as (nm & _ & C).
    apply gbind_ok in C as (t & _ & C). apply gbind_ok in C as (p & HP & C). cbn [union_default gbind] in C. cbv zeta in C.
    destruct (up_default p) as [[dv j]|] eqn:UD; [|discriminate]. injection C as <-. cbn [un_indexer un_union un_variants un_default fst] in *.
    assert (Y0 : headed no_parts) by easy.
    assert (RV : forall vals, gmap (fun s => match s with CaseSpec vs d => gmap (fun v => z <~ resolve_value cx k KU32 v;; GOk (z, d, v)) vs end) specs = GOk vals ->
       forall q, In q (sort_by (fun p => fst (fst p)) (concat vals)) -> 0 <= fst (fst q) < 2 ^ 32).
    { intros vals HV q Hq. apply sort_by_in in Hq. apply in_concat in Hq as (l & Hl & Hq). apply gmap_ok in HV. destruct (Forall2_in_r HV Hl) as ([vs d] & _ & E').
      apply gmap_ok in E'. destruct (Forall2_in_r E' Hq) as (v & _ & E''). apply gbind_ok in E'' as (z & Hz & [= <-]). apply value_range in Hz. cbn in *. lia. }
    assert (TP : headed p).
    { destruct t; try discriminate HP.
      - apply gbind_ok in HP as (vals & HV & HP). apply values_headed in HP; try easy. now apply RV.
      - apply gbind_ok in HP as (p0 & H0 & HP). apply gbind_ok in HP as (p1 & H1 & HP). injection HP as <-.
        pose proof (bool_headed H0 Y0) as K0. exact (bool_headed H1 K0).
      - apply gbind_ok in HP as (vals & HV & HP). apply values_headed in HP; try easy. now apply RV. }
    unfold headed in TP. rewrite UD in TP. destruct TP as (z & paren & ns & is & E1 & E2 & R).
    destruct (union_impl_indexer _); [|discriminate]. injection EX as <-. rewrite E1, E2. eauto 8.
  Qed.

  Lemma indexer_start u : union_impl_indexer cfg = true -> no_default_arms ds -> In (IUnion u) (fi_types f) -> union_starts f E u.
  Proof.
    intros UI NDA Hi T k i va vs S V M SV. pose proof (compiled CO Hi) as (NV & _).
    assert (Hu : In u (unions f)) by (apply in_flat_map; exists (IUnion u); split; [easy|now left]).
    destruct (union_item_from G Hu) as (x & y & [c specs dflt] & Hd & C). pose proof (NDA _ _ _ _ _ Hd) as ->.
    destruct (union_kind C) as (D1 & D2 & D3). cbn [ctx cx_config] in D1, D2, D3. rewrite UI in *.
    unfold union_sem in S. apply guard_some in S as [_ S]. rewrite D1 in S.
    destruct (un_indexer u) as [ix|] eqn:EX; [|discriminate]. destruct (un_union u); [discriminate|].
    destruct (union_head C EX) as (z & paren & ns & is & -> & R).
    apply obind_some in S as (vss & HV & S). unfold indexer_sem in S. cbn [ix_names ix_index ix_other] in S.
    apply obind_some in S as (names & HN & S). apply obind_some in S as (index & HI & S). cbn [obind] in S.
    apply guard_some in S as [_ S]. injection S as <-.
    destruct (variant_named_spec V) as (j & w & -> & NE & EN & EW). rewrite EW in *. cbn [Nat.add].
    pose proof HV as HV'. apply omap_some in HV'. destruct (Forall2_nth HV' NE) as ([w' ts] & NV' & EI).
    unfold indexer_variant_sem in EI. rewrite EN in EI. cbn [token_id obind] in EI. destruct (va_attr va) eqn:EA; try discriminate.
    destruct (omap (ty_sem f) (va_tys va)) as [Ts|] eqn:ET; [|discriminate]. injection EI as <- <-.
    cbn [map omap fst snd token_id] in HN, HI. apply obind_some in HN as (p & HP & HN). injection HP as <-. apply obind_some in HN as (ps & _ & HN). injection HN as <-.
    apply obind_some in HI as (q & HQ & HI). cbn [token_id obind] in HQ. apply obind_some in HQ as (ts' & AS & HQ). apply guard_some in HQ as [LT HQ]. injection HQ as <-.
    apply obind_some in HI as (qs & _ & HI). injection HI as <-.
    assert (NVS : NoDup (map fst vss)).
    { destruct (variants_named (g := indexer_variant_sem f) (vs := un_variants u) (m := vss)) as [E1 E2]; [|exact HV|now rewrite E1].
      intros va' x' a H. unfold indexer_variant_sem in H. destruct (va_name va') as [|z']; [discriminate|]. cbn in H. destruct (va_attr va'); try discriminate.
      destruct (omap (ty_sem f) (va_tys va')); [|discriminate]. now injection H as <- _. }
    rewrite assoc_in_nodup with (v := Ts) in AS; [|easy|now apply nth_error_In with j]. injection AS as <-.
    destruct (@supported_all E (ty_sem f) (va_tys va) Ts vs ET) as [xs DX]; [exact SV|].
    exists (XUnion (XInt z) (XStruct xs)). apply dn_indexer with w Ts; try easy.
    - cbn. now rewrite String.eqb_refl.
    - intros _. cbn. rewrite Z.eqb_refl. split; [easy|]. apply Nat.eqb_eq in LT. rewrite LT. destruct paren; lia.
  Qed.

  Lemma serde_start u : union_impl_indexer cfg = false -> union_impl_union cfg = false -> zlen (un_variants u) <= 2 ^ 31 ->
    In (IUnion u) (fi_types f) -> union_starts f E u.
  Proof.
    intros UI UU LV Hi T k i va vs S V M SV.
    assert (Hu : In u (unions f)) by (apply in_flat_map; exists (IUnion u); split; [easy|now left]).
    destruct (union_item_from G Hu) as (x & y & b & Hd & C).
    destruct (union_kind C) as (D1 & D2 & D3). cbn [ctx cx_config] in D1, D2, D3. rewrite UI, UU in *.
    unfold union_sem in S. apply guard_some in S as [_ S]. rewrite D1 in S.
    destruct (un_indexer u); [discriminate|]. destruct (un_union u); [discriminate|].
    destruct (omap _ _) as [vss|] eqn:HV; [|discriminate]. injection S as <-.
    destruct (variant_named_spec V) as (j & w & -> & NE & EN & EW). cbn [Nat.add].
    assert (LJ : Z.of_nat j < 2 ^ 31) by (assert (j < length (un_variants u))%nat by (apply nth_error_Some; congruence); unfold zlen in LV; lia).
    apply omap_some in HV. destruct (Forall2_nth HV NE) as (q & NV' & EI).
    unfold serde_variant_sem in EI. rewrite EN in EI. cbn [token_id obind] in EI. destruct (va_tys va) as [|t [|]]; try discriminate.
    - destruct (va_attr va); try discriminate. injection EI as <-. inversion SV; subst. eexists. now apply dn_unit_variant with w.
    - destruct (field_sem f (va_attr va) t) as [U|] eqn:FS; [|discriminate]. injection EI as <-.
      inversion SV as [|? v0 ? vs0 h SV0]; subst. inversion SV0; subst. destruct (h _ FS) as [x0 D]. exists (XUnion (XEnum (Z.of_nat j)) x0). apply dn_newtype_variant with w U; assumption.
  Qed.
End File.

Section Supported.
  Variables (cfg : config) (ds : list definition) (f : file) (E : env) (n : nat).
  Hypothesis SD : supported_defs cfg ds.
  Hypothesis GE : generated cfg ds f E.
  Hypothesis G0 : gen_code n cfg ds = GOk f.
  Hypothesis CO : compiles f.
  Let G := sd_good SD.
  Let NT := sd_types SD.
  Let cx := ctx cfg ds.
  Let FF : file_facts cfg ds f := WireLemmas.file_of SD GE.
  Let HE : file_env f = Some E := proj2 GE.
  Lemma scope_ok : one_scope ds.
  Proof.
    intros x H1 H2. pose proof (sd_scope SD) as N. apply in_split in H1 as (l1 & l2 & EQ). rewrite EQ, <- app_assoc in N. apply NoDup_remove_2 in N.
    apply N. apply in_or_app. right. apply in_or_app. now right.
  Qed.

  Lemma same_item x y t u : In (x, t) (type_defs ds) -> In (y, u) (type_defs ds) -> is_typedef t = false -> is_typedef u = false -> camel x = camel y -> x = y /\ t = u.
  Proof.
    intros H1 H2 T1 T2 EC. pose proof (sd_names SD) as [CD _].
    assert (I : forall a b, In (a, b) (type_defs ds) -> is_typedef b = false -> In a (map fst (item_defs true ds))).
    { intros a b Hab TB. apply in_map_iff. exists (a, b). split; [easy|]. apply filter_In. cbn. now rewrite TB. }
    assert (EX : x = y) by (apply (camel_inj CD); eauto). split; [easy|]. subst y.
    assert (EP : (x, t) = (x, u)) by (apply NoDup_map_inj with (1 := NT); easy). congruence.
  Qed.

  Lemma union_start u : union_impl_union cfg = true -> unions_start_well ds -> In (IUnion u) (fi_types f) -> union_starts f E u.
  Proof.
    intros M2 SW Hi T k i va vs S V M SV.
    destruct FF as [F2 _]. destruct (Forall2_in_r F2 Hi) as ([x td] & Hd & IN & CI & FA). cbn [fst snd] in IN, FA. apply filter_In in Hd as [Hd ID].
    destruct td as [|y l|y l|y [c specs dflt]]; [easy| | |]; try (destruct FA as (? & FA & _); discriminate). destruct FA as (u' & [= <-] & t & nm & cty & cs & vs' & dvs & -> & UF).
    pose proof (SW _ _ _ Hd) as (t' & nm' & z & ET & SN & DZ). injection ET as <- <-.
    pose proof (sd_items SD Hd) as (_ & (t' & nm' & ET & DO) & _). injection ET as <- <-.
    destruct (union_means SD FF UF DO M2) as (vss & dt & names & ES & DT & NV & FV & FN). rewrite S in ES. injection ES as ->.
    destruct (uf_cases UF) as [p CF]. destruct (cf_tok CF) as (kd & K & TK).
    destruct (variant_named_spec V) as (j & w & -> & NE & EN & EW). cbn [Nat.add].
    destruct (Forall2_nth FV NE) as (q & Hq & EQ). unfold union_variant_sem in EQ. rewrite EN in EQ. cbn [token_id obind] in EQ.
    destruct (va_attr va) eqn:EA; try discriminate. destruct (va_tys va) as [|dty tys] eqn:ETY; try discriminate.
    apply guard_some in EQ as [RE EQ]. apply rty_eqb_eq in RE. subst dty. destruct (omap (ty_sem f) tys) as [Ts|] eqn:EO; [|discriminate]. injection EQ as <-.
    inversion SV as [|? v0 ? vs0 h SV0]; subst. cbn [field_sem] in h. destruct (h _ DT) as [x0 D0].
    destruct (@supported_all E (ty_sem f) tys Ts vs0 EO SV0) as [xs DX].
    cbn [mapM] in M. destruct (DefaultModel.default_of f k cty) as [v1| | | |] eqn:DC; try discriminate. cbn [bind] in M.
    destruct (mapM _ tys) as [vs1| | | |]; try discriminate. cbn [bind with_attr] in M. injection M as E0 E1. cbn in E0. subst v1 vs1.
    assert (Hu : In u (unions f)) by (apply in_flat_map; exists (IUnion u); split; [easy|now left]).
    (* the value of the discriminant *)
    assert (PV : forall c q, In c cs -> pat_sem f cty (pat_of cfg ds t (fst c)) = Some q -> (rval_eqb v0 q = true <-> ez (fst c) = z)).
    { intros c0 q0 Hc PQ. destruct (cf_cases CF Hc) as [L _]. destruct SN as [|t U|e y0 l a z F Ha Va MIN].
      - inversion TK; subst cty. destruct k; [discriminate|]. cbn in DC. injection DC as <-. injection PQ as <-. cbn.
        assert (HZ : ez (fst c0) = 0 \/ ez (fst c0) = 1).
        { destruct DO as (_ & LS & _). destruct (LS _ (label_entry_in L)) as [EV|EV]; destruct L as (_ & _ & _ & VL); rewrite EV in VL;
            destruct VL as [[VL ->]|[[VL ->]|(N1 & N2 & _)]]; try congruence; auto. }
        destruct HZ as [Hz|Hz]; rewrite Hz in *; cbn; split; intros; try easy; lia.
      - pose proof (uint_tok U TK) as EC. subst cty. destruct k; [discriminate|]. cbn in DC. injection DC as <-.
        assert (IE : is_enum_type cx t = false).
        { destruct (is_enum_type cx t) eqn:ie; [|easy]. apply (enum_type_spec cfg G NT) in ie as (x' & y' & l' & Ex & F'). destruct (uint_enum U Ex F'). }
        assert (Q : q0 = RInt (ez (fst c0))).
        { revert PQ. unfold pat_of. fold cx. rewrite IE. destruct U; cbn; now intros [= <-]. }
        subst q0. cbn [rval_eqb]. rewrite Z.eqb_eq. lia.
      - assert (EC : cty = YName (camel e)).
        { inversion TK as [| | | | | | |? td F1 N1|? d' ? ? F1 D1]; subst; [easy|discriminate (first_fun F F1)]. }
        subst cty. destruct (find_item_of SD FF F eq_refl) as (i0 & Hi0 & FI & IN0 & _ & en & -> & EFS). pose proof EFS as ((NEN & _) & Te & EE & _ & EF).
        assert (H : forall v, In v (labels specs) -> exists a, In a l /\ v = VIdent (as_name a)).
        { unfold disc_ok in DO. rewrite M2 in DO. destruct DO as (_ & _ & _ & [U|(e' & y' & l' & [= <-] & F' & _ & H)]).
          - destruct (uint_enum U eq_refl F).
          - pose proof (first_fun F F') as Q. injection Q as <- <-. exact H. }
        assert (Hen : In en (enums f)) by (apply in_flat_map; exists (IEnum en); split; [easy|now left]).
        destruct (enum_default G scope_ok (proj1 GE) Hen) as (x1 & y1 & l1 & a1 & z1 & H1 & C1 & Ha1 & CA & V1 & M1).
        assert (SI : x1 = e /\ TdEnum y1 l1 = TdEnum y0 l).
        { apply same_item; try easy; [now apply first_in|]. apply camel_of_iff in C1. cbn in IN0. congruence. }
        destruct SI as [-> [= -> ->]]. assert (z1 = z) by (specialize (M1 _ _ Ha Va); specialize (MIN _ _ Ha1 V1); lia). subst z1.
        destruct k; [discriminate|]. cbn [DefaultModel.default_of] in DC. rewrite FI in DC. destruct (position (en_default en) (enum_names en)) as [i0|] eqn:Pi; [|discriminate]. injection DC as <-.
        apply camel_of_iff in CA. rewrite CA in Pi.
        pose proof (sd_items SD (first_in F)) as (_ & CD & _ & _ & INJ).
        revert PQ. unfold pat_of. fold cx. replace (is_enum_type cx (TsIdent e)) with true by (symmetry; apply (enum_type_spec cfg G NT); eauto).
        cbn [pat_sem]. rewrite String.eqb_refl. cbn [guard]. unfold find_enum. rewrite FI. cbn [obind].
        destruct (enum_label SD DO F H eq_refl L) as (m' & Hm' & EV & V').
        unfold ename. rewrite EV. destruct (EF E m' _ Hm' V') as (jj & Pj & _). rewrite Pj. intros [= <-]. cbn. rewrite andb_true_r, Nat.eqb_eq. split.
        + intros <-. apply position_nth in Pi. apply position_nth in Pj. rewrite Pi in Pj. injection Pj as EQ.
          assert (as_name a1 = as_name m') by (apply (camel_inj CD); try easy; now apply in_map).
          assert (a1 = m') by (apply NoDup_map_inj with (1 := proj1 CD); easy). subst m'. now apply value_is_fun with (1 := V').
        + intros EZ. rewrite EZ in V'. assert (a1 = m') by now apply INJ with z. subst m'. congruence. }
    exists (XUnion x0 (XStruct xs)). apply dn_union with w Ts; try easy. intros _. split.
    2: { destruct (union_item_from G0 Hu) as (? & ? & ? & _ & C). destruct (union_tables C) as (_ & _ & SM).
         pose proof (SM _ (nth_error_In _ _ NE)) as LE. rewrite ETY in LE. cbn in LE. apply omap_some in EO. rewrite <- (Forall2_length' EO). lia. }
    pose proof (assoc_names PV FN) as AN.
    destruct (EmitItems.default_of G scope_ok (proj1 GE) Hu) as (x' & y' & c' & specs' & dflt' & Hd' & CN & NVA & DF).
    assert (SI : x' = x /\ TdUnion y' (UBody c' specs' dflt') = TdUnion y (UBody (DVariable t nm) specs dflt)).
    { apply same_item; try easy. cbn in IN. apply camel_of_iff in CN. congruence. }
    destruct SI as [-> [= -> -> -> ->]].
    destruct dflt as [d|].
    - rewrite EW in DF. injection DF as ->.
      destruct (assoc rval_eqb v0 names) as [nn|].
      + exfalso. destruct AN as (c & Hc & EZ & _). destruct (cf_cases CF Hc) as [Lc _]. pose proof (label_entry_in Lc) as I.
        destruct Lc as (_ & _ & _ & VL). rewrite EZ in VL. destruct DZ as [_ DZ]. discriminate DZ. eauto.
      + destruct (TsBool_dec t) as [Et|NB].
        * exfalso. subst t. destruct DO as (_ & _ & B). destruct (B M2) as [B1 B2].
          inversion SN as [|? U|]; subst; [|inversion U]. destruct DZ as [_ DZ]. discriminate DZ. exists (VIdent "FALSE"). split; [easy|now left].
        * assert (TT : forall {A} (a b : A), match t with TsBool => a | _ => b end = b) by (intros; now destruct t).
          now rewrite TT.
    - destruct DZ as [DZ _]. destruct (DZ eq_refl) as (lv & HL & LZ). clear DZ.
      destruct DF as (v & z' & HV & CNz & MIN & NM).
      assert (CL : forall lv z, In lv (labels specs) -> (case_number ds (DVariable t nm) lv z <-> label_is ds lv z)).
      { intros lv0 z0 H0. destruct (TsBool_dec t) as [->|NB].
        - destruct DO as (_ & LS & _). destruct (LS _ H0) as [-> | ->]; cbn; unfold label_is; intuition congruence.
        - assert (X : exists x2 z2, lv0 = VIdent x2 /\ x2 <> "FALSE"%string /\ x2 <> "TRUE"%string /\ value_is ds lv0 z2 /\ 0 <= z2 < 2 ^ 32).
          { unfold disc_ok in DO. destruct t; try easy; destruct DO as (_ & LS & _); destruct (LS _ H0) as (x2 & z2 & ? & ? & ? & ? & ? & _); eauto 8. }
          destruct X as (x3 & z3 & -> & N1 & N2 & _). assert (CC : case_number ds (DVariable t nm) (VIdent x3) z0 = value_is ds (VIdent x3) z0) by now destruct t.
          rewrite CC. unfold label_is. intuition congruence. }
      assert (LE : z <= z').
      { destruct SN as [|t U|e y0 l a z F Ha Va MN].
        - cbn in CNz. lia.
        - assert (X : exists z, value_is ds v z /\ 0 <= z).
          { unfold disc_ok in DO. destruct U; destruct DO as (_ & LS & _); destruct (LS _ HV) as (x2 & z2 & ? & ? & ? & ? & ? & _); exists z2; split; try easy; lia. }
          destruct X as (z1 & V1 & R1). assert (CNz' : value_is ds v z') by (destruct U; exact CNz). rewrite (value_is_fun CNz' V1). lia.
        - unfold disc_ok in DO. rewrite M2 in DO. destruct DO as (_ & _ & _ & [U|(e' & y' & l' & [= <-] & F' & _ & H)]); [destruct (uint_enum U eq_refl F)|].
          pose proof (first_fun F F') as Q. injection Q as <- <-. destruct (H _ HV) as (a' & Ha' & ->). cbn in CNz. apply MN with a'; [easy|].
          eapply member_value; eauto. }
      assert (EZ : z = z') by (apply CL in LZ; [|easy]; specialize (MIN _ _ HL LZ); lia). subst z'.
      apply CL in CNz; [|easy]. unfold labels in HV. apply in_flat_map in HV as ([ls d] & Hs & HV).
      destruct (cf_entry CF Hs HV CNz) as (va' & Hc). destruct (cf_cases CF Hc) as [_ ((kk & EK & _) & _)]. cbn in EK. subst v.
      destruct (NM _ eq_refl) as (m & Em & CM). rewrite EW in Em. injection Em as ->. apply camel_of_iff in CM. subst m.
      destruct (assoc rval_eqb v0 names) as [nn|]; [|now destruct (AN _ Hc)]. destruct AN as (c' & Hc' & EZ' & ->). cbn.
      assert (c' = ((z, d, VIdent kk), va')) by (apply NoDup_map_inj with (1 := cf_nums CF); [easy|easy|exact EZ']). now subst c'.
  Qed.
End Supported.

Theorem default_returns cfg ds f E i : generated cfg ds f E -> compiles f -> self_free ds -> In i (fi_types f) ->
  exists v, returns (fun n => DefaultModel.default_of f n (YName (item_name i))) (Ok v).
Proof.
  intros [G FE] CO SF Hi. apply greturns_run in G as (n & G & _). destruct (all_start G FE CO SF Hi) as (v & N & H).
  exists v. split; [easy|]. exists N. exact H.
Qed.

Theorem default_round_trip cfg ds f E i : generated cfg ds f E -> compiles f -> self_free ds ->
  (forall u, In u (unions f) -> zlen (un_variants u) <= 2 ^ 31) ->
  (union_impl_indexer cfg = true -> no_default_arms ds) ->
  (union_impl_union cfg = true -> supported_defs cfg ds /\ unions_start_well ds) ->
  In i (fi_types f) ->
  exists v bs, returns (fun n => DefaultModel.default_of f n (YName (item_name i))) (Ok v) /\
    returns (fun n => to_bytes n E (TRef (item_name i)) v) (Ok bs) /\
    returns (fun n => from_bytes n E (TRef (item_name i)) bs) (Ok v).
Proof.
  intros GE CO SF SM ND UW Hi. pose proof GE as [G FE]. apply greturns_run in G as (n & G & _). destruct (all_start G FE CO SF Hi) as (v & N & H).
  exists v. assert (S : supported E (TRef (item_name i)) v).
  { assert (K : forall T, ty_sem f (YName (item_name i)) = Some T -> supported E T v).
    { apply (default_supported FE CO) with (n := N) (t := YName (item_name i)).
      - intros e He. now apply enum_start with (1 := G).
      - intros u Hu. assert (IU : In u (unions f)) by (apply in_flat_map; exists (IUnion u); split; [easy|now left]).
        destruct (union_impl_indexer cfg) eqn:UI; [apply indexer_start with (1 := G); auto|].
        destruct (union_impl_union cfg) eqn:UU; [|apply serde_start with (1 := G); auto].
        destruct (UW eq_refl) as [SD US]. apply union_start with (1 := SD) (2 := GE) (3 := G); auto.
      - intros j t Hj Ht. now apply item_boxes with (1 := G) (2 := SF) (3 := Hj).
      - now left.
      - apply H. lia. }
    apply K. cbn. now rewrite (found CO Hi). }
  destruct (c01 S) as (bs & W & R). exists bs. split; [split; [easy|exists N; exact H]|easy].
Qed.

(** ** A struct with a field of its own type *)
Definition tame {A} (r : res A) : Prop := match r with Ok _ | Fuel => True | _ => False end.
Lemma mapM_tame {A B} (g : A -> res B) l : (forall a, In a l -> tame (g a)) -> tame (mapM g l).
Proof.
  induction l as [|a l IH]; intros H; cbn; [easy|]. pose proof (H a (or_introl eq_refl)) as K. destruct (g a); try easy. cbn.
  assert (IH' := IH (fun a h => H a (or_intror h))). now destruct (mapM g l).
Qed.
Lemma bind_tame {A B} (r : res A) (g : A -> B) : tame r -> tame (v <- r;; Ok (g v)).
Proof. now destruct r. Qed.
Lemma union_tys f u T va : union_sem f u = Some T -> In va (un_variants u) -> forall t, In t (va_tys va) -> exists U, ty_sem f t = Some U.
Proof.
  intros S NV t Ht. unfold union_sem in S. apply guard_some in S as [_ S].
  destruct (un_derive u); try discriminate; destruct (un_indexer u) as [ix|]; try discriminate; destruct (un_union u) as [ui|]; try discriminate.
  - destruct (omap _ _) as [vs|] eqn:O; [|discriminate]. destruct (omap_in_l O NV) as (p & _ & P). unfold serde_variant_sem in P.
    apply obind_some in P as (w & _ & P). destruct (va_tys va) as [|t1 [|]]; [destruct Ht| |discriminate]. destruct Ht as [<-|[]].
    destruct (field_sem _ _ _) as [T'|] eqn:FS; [|discriminate]. exact (DefaultProofs.field_ty FS).
  - apply obind_some in S as (vs & O & _). destruct (omap_in_l O NV) as (p & _ & P). unfold indexer_variant_sem in P.
    apply obind_some in P as (w & _ & P). destruct (va_attr va); try discriminate. destruct (omap (ty_sem f) _) as [ts|] eqn:O'; [|discriminate].
    destruct (omap_in_l O' Ht) as (U & _ & HU). eauto.
  - unfold union_impl_sem in S. apply obind_some in S as (disc & _ & S). apply obind_some in S as (dt & DT & S). apply obind_some in S as (vs & O & _).
    destruct (omap_in_l O NV) as (p & _ & P). unfold union_variant_sem in P. apply obind_some in P as (w & _ & P).
    destruct (va_attr va); try discriminate. destruct (va_tys va) as [|t1 ts]; [discriminate|]. apply guard_some in P as [EQ P].
    apply rty_eqb_eq in EQ as ->. destruct Ht as [<-|Ht]; [eauto|]. destruct (omap (ty_sem f) ts) as [Ts|] eqn:O'; [|discriminate].
    destruct (omap_in_l O' Ht) as (U & _ & HU). eauto.
Qed.

Lemma default_tame f E : file_env f = Some E -> compiles f -> forall n t T, ty_sem f t = Some T -> tame (DefaultModel.default_of f n t).
Proof.
  intros FE CO. induction n as [|n IH]; [easy|]. intros t T H. destruct t; cbn [DefaultModel.default_of]; try easy.
  - cbn [ty_sem] in H. destruct (find_item f x) as [i|] eqn:F; [|discriminate]. destruct (find_in F) as [Hi _]. destruct (item_typed FE CO Hi) as (T' & S & _).
    destruct i as [y t|e|s|u]; cbn [item_sem] in S.
    + now apply IH with T'.
    + unfold enum_sem in S. apply guard_some in S as [X _]. apply existsb_exists in X as (y & Hy & EQ). apply String.eqb_eq in EQ as <-.
      now destruct (position_some Hy) as [i ->].
    + apply bind_tame. apply mapM_tame. intros fd Hf. unfold struct_sem in S. destruct (omap _ _) as [l|] eqn:O; [|discriminate].
      destruct (omap_in_l O Hf) as (p & _ & P). destruct (field_sem _ _ _) as [T1|] eqn:FS; [|discriminate].
      destruct (DefaultProofs.field_ty FS) as [U HU]. apply bind_tame. now apply IH with U.
    + pose proof S as S0. unfold union_sem in S. apply guard_some in S as [X _]. unfold default_fits in X. apply existsb_exists in X as (va & Hva & X).
      destruct (va_name va) as [|y] eqn:EV; [discriminate|]. destruct (fst (un_default u)) as [|z] eqn:ED; [discriminate|].
      apply andb_prop in X as [X _]. apply String.eqb_eq in X as ->.
      destruct (@variant_named_some z (un_variants u) 0%nat) as (i & va' & V); [eauto|]. rewrite V.
      destruct (variant_named_spec V) as (j & y & -> & NV & EN & _). apply nth_error_In in NV.
      apply bind_tame. apply mapM_tame. intros t Ht. destruct (union_tys S0 NV Ht) as [U HU]. apply bind_tame. now apply IH with U.
  - cbn [ty_sem] in H. apply obind_some in H as (T' & HT & H). apply obind_some in H as (k & HK & _). rewrite HK.
    apply bind_tame. apply mapM_tame. intros a Ha. apply repeat_spec in Ha as ->. now apply IH with T'.
  - cbn [ty_sem] in H. destruct (ty_sem f t) as [T'|] eqn:HT; [|discriminate]. now apply IH with T'.
Qed.

Theorem default_endless cfg ds f E x y l a : generated cfg ds f E -> compiles f ->
  first x (type_defs ds) (TdStruct y l) -> In (DVariable (TsIdent x) a) l ->
  exists y', camel_of x y' /\ diverges (fun n => DefaultModel.default_of f n (YName y')).
Proof.
  intros [G FE] CO F Hd. apply greturns_run in G as (n0 & G & _). exists (camel x). split; [apply camel_of_camel|].
  destruct (item_from G (first_in F)) as (its & TT & Hin). cbn [type_token_of] in TT. apply gbind_ok in TT as (s & HE & [= <-]).
  unfold convert_struct_token in HE. apply gbind_ok in HE as (fs & HF & HE). apply gbind_ok in HE as (nm & HN & [= <-]). pose proof (name_of HN) as ->.
  assert (Hi : In (IStruct (StructItem (camel x) fs)) (fi_types f)) by (apply Hin; now left).
  assert (FI : find_item f (camel x) = Some (IStruct (StructItem (camel x) fs))) by exact (found CO Hi).
  assert (B : exists fd, In fd fs /\ fd_ty fd = YBox (YName (camel x))).
  { apply gmap_ok in HF. destruct (Forall2_in_l HF Hd) as (fd & Hfd & SF). exists fd. split; [easy|].
    unfold struct_field in SF. cbn [decl_name convert_type_token convert_primitive_token] in SF.
    destruct n0 as [|n0]; [discriminate|]. cbn [resolve_type_token] in SF. rewrite HN in SF. change (typedefs (ctx cfg ds)) with (type_defs ds) in SF.
    rewrite (proj2 (assoc_first _ _ _) F) in SF.
    replace (if remove_typedef (cx_config (ctx cfg ds)) then _ else _) with (GOk (YName (camel x), OpNone)) in SF by (destruct (remove_typedef _); easy).
    cbn [gbind required] in SF. cbv zeta in SF. apply gbind_ok in SF as (idn & _ & SF). injection SF as <-. cbn [fd_attr fd_ty decl_type tyspec_is].
    now rewrite String.eqb_refl. }
  destruct B as (fd & Hfd & TY).
  assert (NO : forall n v, DefaultModel.default_of f n (YName (camel x)) <> Ok v /\ DefaultModel.default_of f n (YBox (YName (camel x))) <> Ok v).
  { induction n as [|n IH]; [easy|]. intros v. split.
    - cbn [DefaultModel.default_of]. rewrite FI. cbn [st_fields]. intros H. destruct (mapM _ fs) as [vs| | | |] eqn:M; try discriminate.
      apply mapM_forall2 in M. destruct (Forall2_in_l M Hfd) as (w & _ & W). rewrite TY in W.
      destruct (DefaultModel.default_of f n (YBox (YName (camel x)))) as [v'| | | |] eqn:D; try discriminate. now destruct (IH v') as [_ IH2].
    - cbn [DefaultModel.default_of]. apply IH. }
  intros n. assert (TM : tame (DefaultModel.default_of f n (YName (camel x)))).
  { apply default_tame with (1 := FE) (2 := CO) (T := TRef (camel x)). cbn. now rewrite FI. }
  destruct (DefaultModel.default_of f n (YName (camel x))) as [v| | | |] eqn:D; try easy. now destruct (NO n v).
Qed.
