(** Every value that the definitions describe is a value of the generated type
    with the same encoding. *)
From Verif Require Import Base SpecUtf8 RustTypes SpecXdr SpecTypes XdrFacts Nom NomFacts Ast ParserModel
  SpecGrammar SpecParse ConstProofs CaseModel SpecCase CaseProofs RustAst GenModel SpecGen GenFacts GenTotal
  GenPanic SpecItems GenLemmas SpecXdl GenSem SpecWire WireBase WireEnum WireTok WireStruct WireUnion WireFile WireSem.
Set Implicit Arguments.
Unset Strict Implicit.
Local Open Scope list_scope.

Lemma as_i32_range z : 0 <= z < 2 ^ 32 -> i32_range (as_i32 z).
Proof. unfold as_i32, i32_range. destruct (z <? 2 ^ 31) eqn:e; lia. Qed.
Lemma as_i32_inj y z : 0 <= y < 2 ^ 32 -> 0 <= z < 2 ^ 32 -> as_i32 y = as_i32 z -> y = z.
Proof. unfold as_i32. destruct (y <? 2 ^ 31) eqn:e1, (z <? 2 ^ 31) eqn:e2; lia. Qed.

Lemma Forall2_nth {A B} (P : A -> B -> Prop) l m : Forall2 P l m -> forall i a, nth_error l i = Some a ->
  exists b, nth_error m i = Some b /\ P a b.
Proof.
  induction 1 as [|a b l m h H IH]; intros [|i] c Hc; try discriminate.
  - injection Hc as <-. now exists b.
  - now apply IH.
Qed.

Lemma complement_not_union cfg : union_complement_index cfg = true -> union_impl_union cfg = false.
Proof. unfold union_complement_index. now destruct (union_impl_indexer cfg), (union_impl_union cfg). Qed.

Lemma union_modes cfg : union_impl_indexer cfg = true \/ union_impl_union cfg = true \/ union_complement_index cfg = true.
Proof. unfold union_complement_index. destruct (union_impl_indexer cfg), (union_impl_union cfg); auto. Qed.

Section Main.
  Variables (cfg : config) (ds : list definition).
  Hypothesis SD : supported_defs cfg ds.
  Variable f : file.
  Hypothesis FF : file_facts cfg ds f.
  Variable E : env.
  Hypothesis HE : file_env f = Some E.
  Let G := sd_good SD.
  Let NT := sd_types SD.
  Let cx := ctx cfg ds.
  Let dm := union_impl_union cfg.

  Definition Pt (t : tyspec) (x : xv) : Prop :=
    forall k ty T, tkind cfg ds t k -> tok ds t ty (op_of k) -> field_sem f (attr_of k) ty = Some T ->
      exists v y, denotes true E T v y /\ same_wire x y.
  Definition Pd (d : decl) (x : xv) : Prop :=
    (d = DVoid -> x = XVoid) /\
    forall k ty T, dkind cfg ds d k -> dtok ds d ty (op_of k) -> field_sem f (attr_of k) ty = Some T ->
      exists v y, denotes true E T v y /\ same_wire x y.
  Definition arm_selected (specs : list cspec) (dflt : option decl) (z : Z) (arm : decl) : Prop :=
    (exists vs v, In (CaseSpec vs arm) specs /\ In v vs /\ label_is ds v z) \/
    dm = true /\ dflt = Some arm /\ forall v, In v (labels specs) -> ~ label_is ds v z.
  Definition shape (t : tyspec) (x : xv) : Prop :=
    match t with
    | TsStruct l => exists xs, x = XStruct xs /\ Forall2 Pd l xs
    | TsEnum l => exists a z, In a l /\ value_is ds (as_value a) z /\ x = XEnum z
    | TsUnion (UBody c specs dflt) => exists t y d z arm a, c = DVariable t y /\ x = XUnion d a /\
        xtype ds dm t d /\ number_of d z /\ Pd arm a /\ arm_selected specs dflt z arm
    | _ => True
    end.

  (** ** Discriminants *)
  Lemma number_small :
    (forall t x, xtype ds dm t x -> forall z, x = XInt z \/ x = XEnum z -> z < 2 ^ 31) /\
    (forall d x, xdecl ds dm d x -> forall z, x = XInt z \/ x = XEnum z -> z < 2 ^ 31) /\
    (forall t xs, xall ds dm t xs -> True) /\ (forall l xs, xfields ds dm l xs -> True).
  Proof.
    apply xtype_xdecl_ind; try easy; try (intros; destruct H0 as [H0|H0]; injection H0 as <-; lia); try (intros; destruct H0; discriminate);
      try (intros; match goal with H : _ = XInt _ \/ _ |- _ => destruct H; discriminate end).
    - intros z H z' [E'|E']; [injection E' as <-; lia|discriminate].
    - intros b z' [E'|E']; [discriminate|injection E' as <-; destruct b; lia].
    - intros z H z' [E'|E']; [injection E' as <-; lia|discriminate].
    - intros z H z' [E'|E']; [injection E' as <-; lia|discriminate].
    - intros l a z _ _ H z' [E'|E']; [discriminate|injection E' as <-; lia].
    all: auto.
  Qed.

  Lemma disc_wire t d z : xtype ds dm t d -> number_of d z -> 0 <= z < 2 ^ 32 -> same_wire d (XInt (as_i32 z)).
  Proof.
    intros X N R. apply same_number; try easy. destruct N as [->|[->| ->]]; [right|now left|right].
    - apply (proj1 number_small _ _ X). now left.
    - apply (proj1 number_small _ _ X). now right.
  Qed.

  Lemma number_fun d y z : number_of d y -> number_of d z -> y = z.
  Proof. intros [->|[->| ->]] [H|[H|H]]; congruence. Qed.

  Lemma uint_value t d : is_uint ds t -> xtype ds dm t d -> exists z, d = XUInt z /\ 0 <= z < 2 ^ 32.
  Proof.
    intros U. revert d. induction U as [|x t y F U IH]; intros d X.
    - inversion X; subst. eauto.
    - inversion X as [| | | | | | | | | | | | | | |? d' ? F' X'|? ? ? ? F'|? ? ? ? F'|? ? ? ? F']; subst;
        try (discriminate (first_fun F F')). pose proof (first_fun F F') as Eq. injection Eq as <-. inversion X'; subst. auto.
  Qed.

  (** ** Arms *)
  Lemma data_struct v y : denotes true E TOpaqueVar v y -> denotes true E TVariableArray (RSeq [v]) (XStruct [y]).
  Proof. intros H. apply dn_struct. cbn. constructor; [easy|constructor]. Qed.
  Lemma var_field ty T : field_sem f AVariable ty = Some T -> T = TOpaqueVar.
  Proof. cbn. destruct ty as [| | | | | | |t| | | |]; try discriminate. destruct t as [[] []| | | | | | | | | | |]; try discriminate. now intros [= <-]. Qed.

  Lemma arm_value d Ts a : arm_types cfg ds f d Ts -> Pd d a ->
    exists vs ys, denotes_all true E Ts vs ys /\ same_wire a (XStruct ys) /\ (length Ts <= 9)%nat.
  Proof.
    intros [[-> ->]|(k & ty & K & T & H)] [PV P].
    - exists [], []. split; [constructor|]. rewrite (PV eq_refl). split; [apply same_sym, same_void|cbn; lia].
    - destruct H as [(KK & T' & ET & ->)|[-> ->]].
      + destruct (P k ty T' K T) as (v & y & D & W); [now destruct KK as [->| ->]|].
        exists [v], [y]. split; [constructor; [easy|constructor]|]. split; [|cbn; lia].
        apply same_trans with y; [easy|]. apply same_sym, same_one.
      + destruct (dkind_field SD FF K T) as [T' ET]. destruct (P _ _ _ K T ET) as (v & y & D & W).
        apply var_field in ET. subst T'. exists [RSeq [v]], [XStruct [y]].
        split; [constructor; [now apply data_struct|constructor]|]. split; [|cbn; lia].
        apply same_trans with y; [easy|]. apply same_sym. eapply same_trans; apply same_one.
  Qed.

  (** ** Unions *)
  Section Union.
    Variables (t : tyspec) (nm : string) (specs : list cspec) (dflt : option decl) (cty : rty).
    Variables (cs : list (ent * variant)) (vs dvs : list variant) (u : union_item).
    Hypothesis UF : union_facts cfg ds t specs dflt cty cs vs dvs u.
    Hypothesis DO : disc_ok cfg ds t (labels specs).
    Variables (d a : xv) (z : Z) (arm : decl).
    Hypothesis XD : xtype ds dm t d.
    Hypothesis ND : number_of d z.
    Hypothesis PA : Pd arm a.
    Hypothesis SEL : arm_selected specs dflt z arm.

    Lemma selected_case vs0 v : In (CaseSpec vs0 arm) specs -> In v vs0 -> label_is ds v z ->
      exists c, In c cs /\ ez (fst c) = z /\ ed (fst c) = arm /\ good_ent cfg ds (fst c) /\ 
        arm_for ds dm specs dflt z arm (ename (fst c)).
    Proof.
      intros H1 H2 H3. destruct (uf_cases UF) as [p CF]. destruct (cf_entry CF H1 H2 H3) as [va Hva].
      eexists. split; [exact Hva|]. destruct (cf_cases CF Hva) as [_ GE]. repeat split; try apply GE.
      left. destruct GE as ((x & Ex & _) & _). cbn in Ex. subst v. exists vs0, x. repeat split; try easy.
      apply camel_of_camel.
    Qed.

    Lemma serde_value T : union_complement_index cfg = true -> union_sem f u = Some T ->
      exists i vv y n, denotes true E T (RVariant i vv) y /\ same_wire (XUnion d a) y /\
        variant_at u i n /\ arm_for ds dm specs dflt z arm n.
    Proof.
      intros ci ET. pose proof (complement_not_union ci) as M2.
      destruct (serde_means SD FF UF ci) as (vss & ET' & FV). rewrite ET in ET'. injection ET' as ->.
      destruct SEL as [(vs0 & v & H1 & H2 & H3)|(H & _)]; [|unfold dm in H; congruence].
      destruct (selected_case H1 H2 H3) as (c & Hc & EZ & ED & GE & AR).
      destruct GE as (_ & _ & _ & R & R' & _). specialize (R' ci). rewrite EZ in R, R'.
      destruct (uf_cases UF) as [p CF]. destruct (cf_fill CF ci) as (_ & F & _). specialize (F c Hc). rewrite EZ, Z.sub_0_r in F.
      assert (NV : nth_error (un_variants u) (Z.to_nat z) = Some (snd c)).
      { rewrite (uf_variants UF). rewrite nth_error_app1; [easy|]. apply nth_error_Some. congruence. }
      destruct (Forall2_nth FV NV) as (q & Hq & EQ).
      destruct (case_in UF Hc) as [_ (EN & tys & AF & ETY)]. rewrite ED in AF. unfold serde_variant_sem in EQ. rewrite EN, ETY in EQ.
      unfold disc_tys in EQ. rewrite M2 in EQ. cbn [token_id obind app] in EQ.
      assert (DW : same_wire d (XEnum (Z.of_nat (Z.to_nat z)))).
      { rewrite Z2Nat.id by lia. apply same_trans with (XInt z); [|apply same_sym, same_enum_int].
        replace z with (as_i32 z); [now apply disc_wire with t|]. unfold as_i32. destruct (Z.ltb_spec z (2 ^ 31)); lia. }
      destruct (arm_serde SD FF ci AF) as [(-> & Ea & Ed)|(ty & T & -> & FT & [[_ Z]|(k & ty' & T' & K & TK & FT' & Z)])].
      - rewrite Ea in EQ. injection EQ as <-. exists (Z.to_nat z), [], (XEnum (Z.of_nat (Z.to_nat z))), (ename (fst c)).
        split; [now apply dn_unit_variant with (ename (fst c)); [|lia]|]. split; [|split; [now exists (snd c)|easy]].
        apply same_trans with d; [|easy]. apply same_union_void. rewrite (proj1 PA Ed). apply same_refl.
      - discriminate.
      - injection Z as <-. rewrite FT in EQ. injection EQ as <-. destruct (proj2 PA _ _ _ K TK FT') as (v' & y & DN & W).
        exists (Z.to_nat z), [v'], (XUnion (XEnum (Z.of_nat (Z.to_nat z))) y), (ename (fst c)).
        split; [now apply dn_newtype_variant with (ename (fst c)) T; [|lia|]|]. split; [now apply same_union|].
        split; [now exists (snd c)|easy].
    Qed.

    Lemma nums_small c : In c cs -> 0 <= ez (fst c) < 2 ^ 32.
    Proof. intros H. destruct (uf_cases UF) as [p CF]. destruct (cf_cases CF H) as [_ (_ & _ & _ & R & _)]. easy. Qed.

    Lemma indexer_value T : union_impl_indexer cfg = true -> union_sem f u = Some T ->
      exists i vv y n, denotes true E T (RVariant i vv) y /\ same_wire (XUnion d a) y /\
        variant_at u i n /\ arm_for ds dm specs dflt z arm n.
    Proof.
      intros M1 ET. assert (M2 : union_impl_union cfg = false) by (destruct (sd_union_mode SD); congruence).
      assert (ci : union_complement_index cfg = false) by (unfold union_complement_index; now rewrite M1).
      destruct (indexer_means SD FF UF M1) as (vss & ET' & NV & FV). rewrite ET in ET'. injection ET' as ->.
      destruct SEL as [(vs0 & v & H1 & H2 & H3)|(H & _)]; [|unfold dm in H; congruence].
      destruct (selected_case H1 H2 H3) as (c & Hc & EZ & ED & _ & AR).
      pose proof (nums_small Hc) as R. rewrite EZ in R.
      destruct (case_in UF Hc) as [HI (EN & tys & AF & ETY)]. apply In_nth_error in HI as [i HI].
      destruct (Forall2_nth FV HI) as (q & Hq & EQ). rewrite ED in AF. unfold indexer_variant_sem in EQ. rewrite EN, ETY in EQ.
      unfold disc_tys in EQ. rewrite M2 in EQ. cbn [token_id obind app] in EQ.
      destruct (arm_plain SD FF ci AF) as (Ea & _ & Ts & EO & AT). rewrite Ea, EO in EQ. injection EQ as <-.
      destruct (arm_value AT PA) as (vv & ys & DN & W & L).
      exists i, vv, (XUnion (XInt (as_i32 z)) (XStruct ys)), (ename (fst c)). split; [|split; [|split; [now exists (snd c)|easy]]].
      - apply dn_indexer with (ename (fst c)) Ts; try easy.
        + apply assoc_in_nodup; [|apply in_map_iff; exists c; now rewrite EZ].
          rewrite map_map. cbn. rewrite <- (map_map fst ename). apply (uf_names UF).
        + now apply as_i32_range.
        + intros _. split; [|easy]. rewrite assocZ_in_nodup with (v := ename (fst c)); [easy| |apply in_map_iff; exists c; now rewrite EZ].
          rewrite map_map. cbn. destruct (uf_cases UF) as [p CF]. pose proof (cf_nums CF) as N.
          apply NoDup_map_in; [now apply NoDup_map_inv with (1 := N)|]. intros b b' Hb Hb' EB. apply as_i32_inj in EB; [|now apply nums_small|now apply nums_small].
          now apply NoDup_map_inj with (1 := N).
      - apply same_union; [|easy]. now apply disc_wire with t.
    Qed.

    (** the discriminant, in union mode *)
    Lemma disc_value dt : union_impl_union cfg = true -> ty_sem f cty = Some dt ->
      exists v y, denotes true E dt v y /\ same_wire d y /\
        forall c q, In c cs -> pat_sem f cty (pat_of cfg ds t (fst c)) = Some q -> (rval_eqb v q = true <-> ez (fst c) = z).
    Proof.
      clear a arm PA SEL.
      intros M DT. destruct (uf_cases UF) as [p CF]. destruct (cf_tok CF) as (k & K & T).
      destruct (TsBool_dec t) as [Et|NB].
      - rewrite Et in *. inversion T; subst cty. injection DT as <-. inversion XD; subst d.
        assert (z = if b then 1 else 0) by (destruct ND as [?|[?|[= <-]]]; easy).
        exists (RBool b), (XUInt (if b then 1 else 0)). split; [constructor|]. split; [apply same_enum_uint; destruct b; lia|].
        intros c q Hc [= <-]. cbn. destruct (cf_cases CF Hc) as [L _].
        assert (HZ : ez (fst c) = 0 \/ ez (fst c) = 1).
        { destruct DO as (_ & LS & _). destruct (LS _ (label_entry_in L)) as [EV|EV]; destruct L as (_ & _ & _ & V); rewrite EV in V;
            destruct V as [[V ->]|[[V ->]|(N1 & N2 & _)]]; try congruence; auto. }
        destruct b; destruct HZ as [Hz|Hz]; rewrite Hz in *; cbn; split; intros; try easy; lia.
      - assert (D : is_uint ds t \/ exists e y l, t = TsIdent e /\ first e (type_defs ds) (TdEnum y l) /\
           (enum_impl_std_trait cfg = true -> dense ds l) /\
           forall v, In v (labels specs) -> exists a, In a l /\ v = VIdent (as_name a)).
        { pose proof DO as DO'. unfold disc_ok in DO'. rewrite M in DO'. destruct t; try easy; destruct DO' as (_ & _ & _ & [U|(e & y & l & E' & F & N & H)]); (now left) || (right; eauto 8). }
        destruct D as [U|(e & y & l & Et & F & DN & H)].
        + pose proof (uint_tok U T) as EC. rewrite EC in DT. injection DT as <-.
          destruct (uint_value U XD) as (z' & Ed & R). assert (z' = z) by (rewrite Ed in ND; destruct ND as [?|[[= ->]|?]]; easy). subst z'.
          exists (RInt z), (XUInt z). split; [apply dn_int; easy|]. split; [rewrite Ed; apply same_refl|].
          intros c q Hc. rewrite EC. unfold pat_of. fold cx.
          assert (is_enum_type cx t = false).
          { destruct (is_enum_type cx t) eqn:ie; [|easy]. apply (enum_type_spec cfg G NT) in ie as (x' & y' & l' & Ex & F').
            destruct (uint_enum U Ex F'). }
          assert (PN : forall q, pat_sem f (YInt false W32) (match t with TsBool => PtBool (ez (fst c) =? 1) | TsIdent c0 =>
              if is_enum_type cx t then PtPath (camel c0) (ename (fst c)) else PtNum (ez (fst c)) | _ => PtNum (ez (fst c)) end) = Some q -> q = RInt (ez (fst c))).
          { intros q'. rewrite H. destruct U; cbn; now intros [= <-]. }
          intros Hq. apply PN in Hq. subst q. cbn. rewrite Z.eqb_eq. split; congruence.
        + assert (EC : cty = YName (camel e)).
          { rewrite Et in T. inversion T as [| | | | | | |? td F1 N1|? d' ? ? F1 D1]; subst; [easy|discriminate (first_fun F F1)]. }
          rewrite EC in DT. cbn in DT.
          destruct (find_enum_facts SD FF F eq_refl) as (i0 & FI & en & -> & (NE & _) & Te & EE & _ & EF). rewrite FI in DT. injection DT as <-.
          destruct (env_lookup HE FI) as (T' & IT & LK). cbn in IT. rewrite EE in IT. injection IT as <-.
          (* the value *)
          assert (XM : exists a, In a l /\ value_is ds (as_value a) z /\ d = XEnum z).
          { rewrite Et in XD. inversion XD as [| | | | | | | | | | | | | | |? d' ? F'|? ? ? ? F' X'|? ? ? ? F'|? ? ? ? F']; subst;
              try (discriminate (first_fun F F')). pose proof (first_fun F F') as Eq. injection Eq as <- <-.
            inversion X' as [| | | | | | | | | | |? m zm Hm Vm Rm| | | | | | |]; subst.
            assert (zm = z) by (destruct ND as [?|[?|[= <-]]]; easy). subst zm. eauto. }
          destruct XM as (m & Hm & Vm & Ed).
          destruct (EF E m z Hm Vm) as (i & Pi & D1 & _).
          destruct D1 as (yv & DV & WV); [destruct (enum_impl_std_trait cfg); auto|].
          exists (RVariant i []), yv. split; [now apply dn_ref with Te|]. split; [now rewrite Ed|].
          assert (OKE : enum_ok cfg ds l) by exact (sd_items SD (first_in F)).
          destruct OKE as (_ & CD & _ & _ & INJ).
          intros c q Hc. unfold pat_of. fold cx. rewrite Et. replace (is_enum_type cx (TsIdent e)) with true.
          2: { symmetry. apply (enum_type_spec cfg G NT). eauto. }
          rewrite EC. cbn [pat_sem]. rewrite String.eqb_refl. cbn [guard]. unfold find_enum. rewrite FI. cbn [obind].
          destruct (cf_cases CF Hc) as [L _]. destruct (enum_label SD DO F H Et L) as (m' & Hm' & EV & V').
          unfold ename. rewrite EV. destruct (EF E m' _ Hm' V') as (j & Pj & _). rewrite Pj. intros [= <-]. cbn. rewrite andb_true_r, Nat.eqb_eq.
          split.
          * intros <-. apply position_nth in Pi. apply position_nth in Pj. rewrite Pi in Pj. injection Pj as EQ.
            assert (as_name m = as_name m') by (apply (camel_inj CD); try easy; now apply in_map).
            assert (m = m') by (apply NoDup_map_inj with (1 := proj1 CD); easy). subst m'. now apply value_is_fun with (1 := V').
          * intros EZ. rewrite EZ in V'. assert (m = m') by now apply INJ with z. subst m'. congruence.
    Qed.

    Lemma assoc_names v names : (forall c q, In c cs -> pat_sem f cty (pat_of cfg ds t (fst c)) = Some q -> (rval_eqb v q = true <-> ez (fst c) = z)) ->
      Forall2 (fun c q => pat_sem f cty (pat_of cfg ds t (fst c)) = Some (fst q) /\ snd q = ename (fst c)) cs names ->
      match assoc rval_eqb v names with
      | Some n => exists c, In c cs /\ ez (fst c) = z /\ n = ename (fst c)
      | None => forall c, In c cs -> ez (fst c) <> z
      end.
    Proof.
      intros H F. clear - H F. induction F as [|c [q n] l names [P EN] F IH]; [easy|]. cbn in *.
      pose proof (H c q (or_introl eq_refl) P) as HQ. destruct (rval_eqb v q).
      - exists c. split; [now left|]. split; [now apply HQ|easy].
      - assert (IH' := IH ltac:(intros; now apply H; [right|])). destruct (assoc rval_eqb v names).
        + destruct IH' as (c' & H1 & H2). exists c'. split; [now right|easy].
        + intros c' [<-|Hc']; [|now apply IH']. intros EZ. apply HQ in EZ. discriminate.
    Qed.

    Lemma union_value T : union_impl_union cfg = true -> union_sem f u = Some T ->
      exists i vv y n, denotes true E T (RVariant i vv) y /\ same_wire (XUnion d a) y /\
        variant_at u i n /\ arm_for ds dm specs dflt z arm n.
    Proof.
      intros M2 ET. assert (ci : union_complement_index cfg = false) by (unfold union_complement_index; now rewrite M2, andb_comm).
      destruct (union_means SD FF UF DO M2) as (vss & dt & names & ET' & DT & NV & FV & FN). rewrite ET in ET'. injection ET' as ->.
      destruct (disc_value M2 DT) as (v & y & DN & W & PV). pose proof (assoc_names PV FN) as AN.
      destruct (uf_cases UF) as [p CF].
      destruct SEL as [(vs0 & lv & H1 & H2 & H3)|(_ & ED & NL)].
      - destruct (selected_case H1 H2 H3) as (c & Hc & EZ & ED & _ & AR).
        destruct (case_in UF Hc) as [HI (EN & tys & AF & ETY)]. apply In_nth_error in HI as [i HI].
        destruct (Forall2_nth FV HI) as (q & Hq & EQ). rewrite ED in AF. unfold union_variant_sem in EQ. rewrite EN, ETY in EQ.
        unfold disc_tys in EQ. rewrite M2 in EQ. cbn [token_id obind app] in EQ.
        destruct (arm_plain SD FF ci AF) as (Ea & _ & Ts & EO & AT). rewrite Ea, EO, rty_eqb_refl in EQ. injection EQ as <-.
        destruct (arm_value AT PA) as (vv & ys & DA & WA & L).
        exists i, (v :: vv), (XUnion y (XStruct ys)), (ename (fst c)). split; [|split; [now apply same_union|split; [now exists (snd c)|easy]]].
        apply dn_union with (ename (fst c)) Ts; try easy. intros _. split; [|easy].
        destruct (assoc rval_eqb v names) as [n|]; [|now destruct (AN c Hc)]. destruct AN as (c' & Hc' & EZ' & ->). cbn.
        assert (c' = c) by (apply NoDup_map_inj with (1 := cf_nums CF); [easy|easy|congruence]). now subst c'.
      - pose proof (uf_default UF) as DA. rewrite ED in DA. destruct DA as (tys & EDV & DA).
        assert (HI : nth_error (un_variants u) (length vs) = Some (Variant ANone default_id (disc_tys cfg cty ++ tys))).
        { rewrite (uf_variants UF), EDV. rewrite nth_error_app2, Nat.sub_diag by lia. easy. }
        destruct (Forall2_nth FV HI) as (q & Hq & EQ). unfold union_variant_sem in EQ. cbn in EQ. unfold disc_tys in EQ. rewrite M2 in EQ. cbn [app] in EQ.
        rewrite rty_eqb_refl in EQ. cbn [guard] in EQ.
        assert (AT : exists Ts, omap (ty_sem f) tys = Some Ts /\ arm_types cfg ds f arm Ts).
        { destruct DA as [[-> ->]|(k & ty & K & TK & -> & KU)]; [exists []; split; [easy|now left]|].
          destruct (arm_ty SD FF K TK (KU M2)) as [T' E']. exists [T']. cbn. rewrite E'. split; [easy|]. right. exists k, ty. split; [easy|]. split; [easy|].
          left. split; [now apply KU|eauto]. }
        destruct AT as (Ts & EO & AT). rewrite EO in EQ. injection EQ as <-.
        destruct (arm_value AT PA) as (vv & ys & DNA & WA & L).
        exists (length vs), (v :: vv), (XUnion y (XStruct ys)), "Default"%string.
        split; [|split; [now apply same_union|split; [eexists; split; [exact HI|reflexivity]|right; auto]]].
        apply dn_union with "Default"%string Ts; try easy. intros _. split; [|easy].
        destruct (assoc rval_eqb v names) as [n|].
        + exfalso. destruct AN as (c & Hc & EZ & _). destruct (cf_cases CF Hc) as [Lc _]. pose proof (label_entry_in Lc) as I.
          destruct Lc as (_ & _ & _ & V). rewrite EZ in V. now apply (NL (ev (fst c))).
        + destruct (TsBool_dec t) as [Et|NB].
          * exfalso. rewrite Et in *. destruct DO as (_ & _ & B). destruct (B M2) as [B1 B2]. inversion XD; subst d.
            assert (z = if b then 1 else 0) by (destruct ND as [?|[?|[= <-]]]; easy).
            destruct b; subst z; [apply (NL _ B2); right; now left|apply (NL _ B1); now left].
          * assert (TT : forall {A} (a b : A), match t with TsBool => a | _ => b end = b) by (intros; now destruct t).
            rewrite TT. cbn. now rewrite ED.
    Qed.
  End Union.

  (** ** Elements and fields *)
  Lemma all_values t T xs : (forall x, In x xs -> exists v y, denotes true E T v y /\ same_wire x y) -> (t : tyspec) = t ->
    exists vs ys, denotes_all true E (repeat T (length xs)) vs ys /\ same_wires xs ys /\
      length vs = length xs /\ length ys = length xs.
  Proof.
    intros H _. induction xs as [|x xs IH]; [exists [], []; split; [constructor|easy]|].
    destruct (H x (or_introl eq_refl)) as (v & y & D & W).
    destruct IH as (vs & ys & DA & WA & L1 & L2); [intros; apply H; now right|].
    exists (v :: vs), (y :: ys). split; [cbn; now constructor|]. split; [now apply same_cons|]. cbn. now rewrite L1, L2.
  Qed.

  Lemma item_named n t ty op : first n (type_defs ds) t -> is_typedef t = false -> tok ds (TsIdent n) ty op ->
    ty = YName (camel n).
  Proof.
    intros F N T. inversion T as [| | | | | | |? td F1 N1|? d' ? ? F1 D1]; subst; [easy|].
    rewrite (first_fun F F1) in N. discriminate.
  Qed.

  Lemma ref_value n t i T x : first n (type_defs ds) t -> is_typedef t = false -> find_item f (camel n) = Some i ->
    item_sem f i = Some T -> (exists v y, denotes true E T v y /\ same_wire x y) ->
    forall T', field_sem f ANone (YName (camel n)) = Some T' -> exists v y, denotes true E T' v y /\ same_wire x y.
  Proof.
    intros F N FI IT (v & y & D & W) T' ET. cbn in ET. rewrite FI in ET. injection ET as <-.
    destruct (env_lookup HE FI) as (T2 & IT2 & LK). rewrite IT in IT2. injection IT2 as <-.
    exists v, y. split; [|easy]. now apply dn_ref with T.
  Qed.

  Lemma fields_values x l fds : Forall2 (field_facts cfg ds x) l fds -> forall xs ts, Forall2 Pd l xs ->
    Forall2 (fun fd (q : string * ty) => field_sem f (fd_attr fd) (fd_ty fd) = Some (snd q)) fds ts ->
    exists vs ys, denotes_all true E (map snd ts) vs ys /\ same_wires xs ys.
  Proof.
    induction 1 as [|d fd l fds FD F IH]; intros xs ts P S; inversion P as [|? x1 ? xs1 P1 P2]; inversion S as [|? q ? ts1 S1 S2]; subst.
    - exists [], []. split; [constructor|easy].
    - destruct (IH _ _ P2 S2) as (vs & ys & D & W).
      assert (H : exists v y, denotes true E (snd q) v y /\ same_wire x1 y).
      { destruct FD as (k & nm & ty & K & _ & _ & T & _ & EA & FT). destruct FT as [[_ ET]|(ET & _ & ->)]; rewrite EA, ET in S1.
        - exact (proj2 P1 _ _ _ K T S1).
        - cbn in S1. destruct (ty_sem f ty) as [T'|] eqn:E'; [|discriminate]. injection S1 as S1.
          destruct (proj2 P1 _ _ T' K T E') as (v & y & DV & WV). exists v, y. split; [|easy]. rewrite <- S1. now apply dn_box. }
      destruct H as (v & y & DV & WV). exists (v :: vs), (y :: ys). split; [cbn; now constructor|now apply same_cons].
  Qed.

  (** ** All values *)
  Lemma array_num z T : array_len f (TokNum z) false = Some T -> 0 <= z <= 32 /\ T = Z.to_nat z.
  Proof. cbn. destruct (0 <=? z) eqn:e1, (z <=? 32) eqn:e2; cbn; try discriminate. intros [= <-]. lia. Qed.

  Ltac prim := split; [|easy]; intros k ty T K TK FS; inversion K; subst; inversion TK; subst; cbn in FS; injection FS as <-.

  Lemma values :
    (forall t x, xtype ds dm t x -> Pt t x /\ shape t x) /\ (forall d x, xdecl ds dm d x -> Pd d x) /\
    (forall t xs, xall ds dm t xs -> Forall (Pt t) xs) /\ (forall l xs, xfields ds dm l xs -> Forall2 Pd l xs).
  Proof.
    apply xtype_xdecl_ind.
    - intros z R. prim. exists (RInt z), (XInt z). split; [now apply dn_int|easy].
    - intros z R. prim. exists (RInt z), (XUInt z). split; [now apply dn_int|easy].
    - intros z R. prim. exists (RInt z), (XHyper z). split; [now apply dn_int|easy].
    - intros z R. prim. exists (RInt z), (XUHyper z). split; [now apply dn_int|easy].
    - intros z R. prim. exists (RFloat z), (XFloat z). split; [now apply dn_f32|easy].
    - intros z R. prim. exists (RFloat z), (XDouble z). split; [now apply dn_f64|easy].
    - intros b. prim. exists (RBool b), (XUInt (if b then 1 else 0)). split; [constructor|]. apply same_enum_uint. destruct b; lia.
    - intros z R. prim. exists (RInt z), (XInt z). split; [now apply dn_int|easy].
    - intros z R. prim. exists (RInt z), (XUInt z). split; [now apply dn_int|easy].
    - intros z R. prim. exists (RInt z), (XInt z). split; [now apply dn_int|easy].
    - intros z R. prim. exists (RInt z), (XUInt z). split; [now apply dn_int|easy].
    - intros l a z H V R. split; [intros k ty T K; inversion K|]. cbn. eauto.
    - intros l xs _ H. split; [intros k ty T K; inversion K|]. cbn. eauto.
    - intros t y specs dflt d z vs v arm a XD _ N H1 H2 L _ PA. split; [intros k ty T K; inversion K|]. cbn.
      exists t, y, d, z, arm, a. repeat split; try easy; try apply PA. left. eauto.
    - intros t y specs d z arm a DM XD _ N L _ PA. split; [intros k ty T K; inversion K|]. cbn.
      exists t, y, d, z, arm, a. repeat split; try easy; try apply PA. right. eauto.
    - intros n d x F _ [_ P]. split; [|easy]. intros k ty T K TK FS.
      assert (D : dtok ds d ty (op_of k)).
      { inversion TK as [| | | | | | |? td F1 N1|? d' ? ? F1 D1]; subst; [rewrite <- (first_fun F F1) in N1; discriminate|].
        pose proof (first_fun F F1) as Eq. injection Eq as <-. easy. }
      inversion K as [| | | | | | |? ? ? F'|? ? ? F'|? ? ? F'|? ? ? F'|? ? ? F'|? d' ? F' D' _|? d' F' D']; subst;
        try (discriminate (first_fun F F')); pose proof (first_fun F F') as Eq; injection Eq as <-.
      + eapply P; eassumption.
      + eapply (P KDense); eassumption.
    - (* an enum *)
      intros n y l x F _ [_ (a & z & Ha & V & ->)]. split; [|easy]. intros k ty T K TK FS.
      pose proof (item_named F eq_refl TK) as ->.
      destruct (find_enum_facts SD FF F eq_refl) as (i & FI & en & -> & _ & Te & ET & _ & EF).
      destruct (EF E a z Ha V) as (j & Pj & D1 & D2).
      inversion K as [| | | | | | |? ? l' F' M|? ? l' F' M|? ? l' F' M DN|? ? ? F'|? ? ? F'|? d' ? F' D' _|? d' F' D']; subst;
        try (discriminate (first_fun F F')); pose proof (first_fun F F') as Eq; injection Eq as <- <-.
      + eapply (ref_value F eq_refl FI); [exact ET| |exact FS]. destruct D1 as (yy & H1 & H2); [now left|]. eauto.
      + cbn in FS. unfold find_enum in FS. rewrite FI in FS. cbn in FS. exists (RVariant j []), (XEnum z). split; [now apply D2|easy].
      + eapply (ref_value F eq_refl FI); [exact ET| |exact FS]. destruct D1 as (yy & H1 & H2); [now right|]. eauto.
    - (* a struct *)
      intros n y l x F _ [_ (xs & -> & P)]. split; [|easy]. intros k ty T K TK FS.
      pose proof (item_named F eq_refl TK) as ->.
      assert (EK : attr_of k = ANone).
      { inversion K as [| | | | | | |? ? ? F'|? ? ? F'|? ? ? F'|? ? ? F'|? ? ? F'|? d' ? F' D' _|? d' F' D']; subst;
          try (discriminate (first_fun F F')); easy. }
      rewrite EK in FS. destruct (find_item_of SD FF F eq_refl) as (i & _ & FI & _ & _ & s & -> & SF).
      destruct (struct_means SD FF SF) as (ts & ES & FT).
      eapply (ref_value F eq_refl FI); [exact ES| |exact FS].
      destruct (fields_values SF P FT) as (vs & ys & D & W). exists (RSeq vs), (XStruct ys). split; [now apply dn_struct|now apply same_struct].
    - (* a union *)
      intros n y u x F _ [_ S]. split; [|easy]. intros k ty T K TK FS.
      pose proof (item_named F eq_refl TK) as ->.
      assert (EK : attr_of k = ANone).
      { inversion K as [| | | | | | |? ? ? F'|? ? ? F'|? ? ? F'|? ? ? F'|? ? ? F'|? d' ? F' D' _|? d' F' D']; subst;
          try (discriminate (first_fun F F')); easy. }
      rewrite EK in FS. destruct u as [c specs dflt]. destruct S as (t & nm & d & z & arm & a & -> & -> & XD & ND & PA & SEL).
      pose proof (sd_items SD (first_in F)) as SU. destruct SU as (_ & (t' & nm' & Ec & DO) & _). injection Ec as <- <-.
      destruct (find_item_of SD FF F eq_refl) as (i & HI & FI & IF). pose proof IF as (_ & _ & ui & -> & t' & nm' & cty & cs & vs & dvs & Ec & UF). injection Ec as <- <-.
      destruct (env_lookup HE FI) as (T2 & IT & LK).
      eapply (ref_value F eq_refl FI); [exact IT| |exact FS]. cbn in IT.
      destruct (union_modes cfg) as [M1|[M2|ci]].
      + destruct (indexer_value UF XD ND PA SEL M1 IT) as (i & vv & yy & nn & H1 & H2 & _). eauto.
      + destruct (union_value UF DO XD ND PA SEL M2 IT) as (i & vv & yy & nn & H1 & H2 & _). eauto.
      + destruct (serde_value UF XD ND PA SEL ci IT) as (i & vv & yy & nn & H1 & H2 & _). eauto.
    - intros t y x _ [P _]. split; [easy|]. intros k ty T K TK FS. inversion K; subst. inversion TK; subst. eapply P; eassumption.
    - intros t y v xs V _ P. split; [easy|]. intros k ty T K TK FS.
      inversion K as [|? ? c z Kt SF R| | | | | ]; subst. inversion TK as [|? ? ? len ty' op' Ht L| | | | | |]; subst.
      inversion L as [? z' S'|]; subst. inversion V as [? ? V'| |]; subst. rewrite (stands_fun S' SF) in *. rewrite (stands_fun V' SF) in *.
      cbn [attr_of field_sem ty_sem] in FS. destruct (ty_sem f ty') as [T'|] eqn:ET; [|discriminate]. cbn [obind] in FS.
      destruct (array_len f (TokNum z) false) as [m|] eqn:EL; [|discriminate]. injection FS as <-. apply array_num in EL as [_ ->].
      destruct (@all_values t T' xs) as (vs & ys & D & W & L1 & L2); [|easy|].
      { intros x Hx. rewrite Forall_forall in P. exact (P x Hx _ _ _ Kt Ht ET). }
      exists (RSeq vs), (XFArray ys). split; [|now apply same_farray]. apply dn_array.
      replace (Z.to_nat z) with (length xs); [easy|]. pose proof (stands_fun V' SF) as EZ. unfold zlen in EZ. lia.
    - intros t y max xs [Wi _] _ P. split; [easy|]. intros k ty T K TK FS. rewrite Forall_forall in P.
      inversion K as [| |? ? ? k' Kt KK| | | | ]; subst. cbn [op_of attr_of] in TK, FS.
      assert (Q : forall T', (forall x, In x xs -> exists v y, denotes true E T' v y /\ same_wire x y) -> T = TSeq T' ->
         exists v y, denotes true E T v y /\ same_wire (XArray xs) y).
      { intros T' H ->. destruct (all_values H (eq_refl t)) as (vs & ys & D & W & L1 & L2).
        exists (RSeq vs), (XArray ys). split; [|now apply same_array]. apply dn_seq; [unfold zlen in *; now rewrite L1|]. now rewrite L1. }
      inversion TK as [| |? ? ? ty' Ht|? ? ? ty' op' Ht NV| | | |]; subst.
      + injection FS as <-. apply (Q TVariableArray); [|easy]. intros x Hx.
        assert (k' = KVar) as ->.
        { destruct KK as [->| ->]; [|easy]. pose proof (proj1 (kind_sem (IN SD) (find_enum_facts SD FF) (const_means SD FF)) t KPlain Kt ty' _ Ht) as [H _]. discriminate H. }
        destruct (tkind_field SD FF Kt Ht) as [T' ET]. destruct (P x Hx _ _ _ Kt Ht ET) as (v & y' & D & W).
        apply var_field in ET. subst T'. exists (RSeq [v]), (XStruct [y']). split; [now apply data_struct|].
        apply same_trans with y'; [easy|]. apply same_sym, same_one.
      + pose proof (proj1 (kind_sem (IN SD) (find_enum_facts SD FF) (const_means SD FF)) t k' Kt ty' _ Ht) as [HO _].
        assert (k' = KPlain) as -> by (destruct KK as [->| ->]; [easy|discriminate HO]).
        cbn in FS. destruct (ty_sem f ty') as [T'|] eqn:ET; [|discriminate]. injection FS as <-. apply (Q T'); [|easy].
        intros x Hx. exact (P x Hx _ _ _ Kt Ht ET).
    - intros y v bs V. split; [easy|]. intros k ty T K TK FS. inversion K as [| | |? ? L| | | ]; subst. inversion TK as [| | | |? ? len LT| | |]; subst.
      cbn [attr_of field_sem] in FS. destruct (array_len f len true) as [m|] eqn:EL; [|discriminate]. injection FS as <-.
      destruct (len_sem (IN SD) (find_enum_facts SD FF) (const_means SD FF) L LT) as (z & V' & R & EL'). rewrite EL in EL'. injection EL' as ->.
      rewrite (value_is_fun V' V) in *. exists (RBytes bs), (XFOpaque bs). split; [|easy]. apply dn_fopaque. unfold zlen. lia.
    - intros y max bs [Wi _]. split; [easy|]. intros k ty T K TK FS. inversion K; subst. inversion TK; subst. injection FS as <-.
      exists (RBytes bs), (XOpaque bs). split; [now apply dn_opaque|easy].
    - intros y max bs U [Wi _]. split; [easy|]. intros k ty T K TK FS. inversion K; subst. inversion TK; subst. injection FS as <-.
      exists (RStr bs), (XString bs). split; [now apply dn_str|easy].
    - intros t y. split; [easy|]. intros k ty T K TK FS. inversion K; subst. inversion TK; subst. cbn in FS.
      destruct (ty_sem f ty0) as [T'|]; [|discriminate]. injection FS as <-. exists RNone, XNone. split; [constructor|easy].
    - intros t y x _ [P _]. split; [easy|]. intros k ty T K TK FS. inversion K as [| | | | | |? ? Kt]; subst. inversion TK as [| | | | | | |? ? ty' op' Ht]; subst. cbn in FS.
      destruct (ty_sem f ty') as [T'|] eqn:ET; [|discriminate]. injection FS as <-. destruct (P _ _ _ Kt Ht ET) as (v & y' & D & W).
      exists (RSome v), (XSome y'). split; [now constructor|now apply same_some].
    - split; [easy|]. intros k ty T K. inversion K.
    - constructor.
    - intros t x xs _ [P _] _ PS. now constructor.
    - constructor.
    - intros d l x xs _ P _ PS. now constructor.
  Qed.
End Main.
