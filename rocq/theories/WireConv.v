(** Every value of a generated type is a value that the definitions describe,
    with the same encoding. *)
From Verif Require Import Base SpecUtf8 RustTypes SerModel DeModel SpecXdr SpecTypes SpecDecode SpecMisc XdrFacts EncProofs DecProofs CodecProofs
  NormProofs Nom NomFacts Ast ParserModel
  SpecGrammar SpecParse ParserLemmas ConstProofs CaseModel SpecCase CaseProofs RustAst GenModel SpecGen GenFacts GenTotal
  GenPanic SpecItems GenLemmas SpecXdl GenSem SpecWire SpecEmit SpecConv EmitProofs WireBase WireEnum WireTok WireStruct WireUnion WireFile
  WireSem WireMain WireLemmas.
From Verif Require EmitRun.
Set Implicit Arguments.
Unset Strict Implicit.
Local Open Scope list_scope.

Fixpoint xsize (x : xv) : nat :=
  match x with
  | XFArray l | XArray l | XStruct l => S (fold_right (fun y n => xsize y + n)%nat O l)
  | XUnion d a => S (xsize d + xsize a)
  | XSome x => S (xsize x)
  | _ => 1%nat
  end.
Lemma xsize_in x l : In x l -> (xsize x <= fold_right (fun y n => xsize y + n)%nat O l)%nat.
Proof. induction l as [|y l IH]; [easy|]. intros [->|H]; cbn; [lia|]. specialize (IH H). lia. Qed.

(** values and encodings determine each other *)
Lemma denotes_wire E T v y y' : denotes true E T v y -> denotes true E T v y' -> same_wire y y'.
Proof.
  intros D D'. destruct (to_bytes_rfc D) as (b & R & B), (to_bytes_rfc D') as (b' & R' & B').
  pose proof (returns_ok_inj B B'). subst b'. intros c. split; intros H.
  - now rewrite (rfc_det H R).
  - now rewrite (rfc_det H R').
Qed.
Lemma denotes_value E T v v' y y' : denotes true E T v y -> denotes true E T v' y' -> same_wire y y' -> v = v'.
Proof.
  intros D D' W. destruct (to_bytes_rfc D) as (b & R & _).
  assert (A : accepts E T v b) by now apply denotes_accepts with y.
  assert (A' : accepts E T v' b) by (apply denotes_accepts with y'; [easy|now apply W]).
  exact (returns_ok_inj (from_bytes_accepted A) (from_bytes_accepted A')).
Qed.

Lemma denotes_all_repeat E T n : forall vs ys, denotes_all true E (repeat T n) vs ys ->
  length vs = n /\ Forall2 (denotes true E T) vs ys.
Proof.
  induction n as [|n IH]; intros vs ys H; inversion H as [|? ? ? ? ? ? D DA]; subst; [now split|].
  destruct (IH _ _ DA) as [L F]. split; [cbn; congruence|now constructor].
Qed.

Lemma position_lt x l i : position x l = Some i -> (i < length l)%nat.
Proof. intros H. apply position_nth in H. apply nth_error_Some. congruence. Qed.

(** counting *)
Lemma pigeon {A} (l : list A) (pos : A -> nat) m : NoDup (map pos l) -> (forall a, In a l -> (pos a < m)%nat) ->
  (m <= length l)%nat -> forall i, (i < m)%nat -> exists a, In a l /\ pos a = i.
Proof.
  intros N B L i Hi. assert (INC : incl (List.seq 0%nat m) (map pos l)).
  { apply NoDup_length_incl; [easy|now rewrite map_length, seq_length|].
    intros k Hk. apply in_map_iff in Hk as (a & <- & Ha). apply in_seq. specialize (B a Ha). lia. }
  assert (Hin : In i (map pos l)) by (apply INC, in_seq; lia). apply in_map_iff in Hin as (a & E & Ha). now exists a.
Qed.

Lemma map_fixed {A} (g : A -> A) l : map g l = l -> Forall (fun a => g a = a) l.
Proof. induction l as [|a l IH]; [constructor|]. intros [= H1 H2]. constructor; auto. Qed.

Section Conv.
  Variables (cfg : config) (ds : list definition).
  Hypothesis SD : supported_defs cfg ds.
  Variable f : file.
  Hypothesis FF : file_facts cfg ds f.
  Variable E : env.
  Hypothesis HE : file_env f = Some E.
  Hypothesis NM : map def_without_max ds = ds.
  Hypothesis EX : exact_defs cfg ds.
  Let G := sd_good SD.
  Let NT := sd_types SD.
  Let cx := ctx cfg ds.
  Let dm := union_impl_union cfg.

  Lemma no_max x td : In (x, td) (type_defs ds) -> type_without_max td = td.
  Proof.
    intros H. pose proof (max_types ds) as M. rewrite NM in M. clear - H M. revert H M. generalize (type_defs ds).
    induction l as [|[y u] l IH]; [easy|]. cbn. intros [[= -> ->]|H] [= M1 M2]; [now symmetry|now apply IH].
  Qed.

  (** ** Enums *)
  (** every variant is a member's *)
  Lemma variant_member l e : enum_ok cfg ds l -> enum_exact cfg ds l -> enum_facts cfg ds l e ->
    forall i, (i < length (enum_names e))%nat ->
    exists a z, In a l /\ value_is ds (as_value a) z /\ position (camel (as_name a)) (enum_names e) = Some i.
  Proof.
    intros (_ & CD & _ & VALS & _) XE (_ & Te & _ & [_ LN] & EF) i Hi. specialize (LN XE).
    assert (POS : forall a, In a l -> exists i, position (camel (as_name a)) (enum_names e) = Some i).
    { intros a Ha. destruct (VALS a Ha) as (z & V & _). destruct (EF [] a z Ha V) as (j & P & _). eauto. }
    set (pos := fun a => match position (camel (as_name a)) (enum_names e) with Some i => i | None => O end).
    destruct (@pigeon _ l pos (length (enum_names e))) with (i := i) as (a & Ha & Ea); try easy.
    - apply NoDup_map_in; [now apply NoDup_map_inv with (1 := proj1 CD)|]. intros a b Ha Hb EQ.
      destruct (POS a Ha) as [j Pj], (POS b Hb) as [k Pk]. unfold pos in EQ. rewrite Pj, Pk in EQ. subst k.
      apply position_nth in Pj. apply position_nth in Pk. rewrite Pj in Pk. injection Pk as EQ.
      apply NoDup_map_inj with (1 := proj1 CD); try easy. apply (camel_inj CD); try easy; now apply in_map.
    - intros a Ha. destruct (POS a Ha) as [j Pj]. unfold pos. rewrite Pj. now apply position_lt with (1 := Pj).
    - destruct (VALS a Ha) as (z & V & _). exists a, z. split; [easy|]. split; [easy|].
      destruct (POS a Ha) as [j Pj]. unfold pos in Ea. rewrite Pj in Ea. congruence.
  Qed.

  Lemma enum_value e T v y : enum_sem e = Some T -> denotes true E T v y ->
    exists i, v = RVariant i [] /\ (i < length (enum_names e))%nat.
  Proof.
    unfold enum_sem. intros H D. apply guard_some in H as [_ H].
    assert (TE : T = TEnum (map (fun x => (x, VUnit)) (enum_names e)) ->
      exists i, v = RVariant i [] /\ (i < length (enum_names e))%nat).
    { intros ->. inversion D as [| | | | | | | | | | | | | | | | | | |? ? ? HN|? ? ? ? ? ? HN|? ? ? ? ? ? HN|? ? ? ? ? ? HN| | | | | |]; subst;
        rewrite nth_error_map in HN; destruct (nth_error (enum_names e) i) eqn:Ei; try discriminate.
      exists i. split; [easy|]. apply nth_error_Some. congruence. }
    destruct (en_derive e), (en_indexer e) as [ix|], (en_as_ref e); try discriminate.
    - apply TE. destruct (signed_sem e); [|discriminate]. now injection H as <-.
    - apply TE. now injection H as <-.
    - unfold indexer_sem in H. apply obind_some in H as (names & _ & H). apply obind_some in H as (index & _ & H).
      apply obind_some in H as (other & _ & H). apply guard_some in H as [_ [= <-]].
      inversion D as [| | | | | | | | | | | | | | | | | | | | | | | | | |? ? ? ? i ? ts vs xs ? _ HN _ _ _ DA| |]; subst.
      rewrite nth_error_map in HN. destruct (nth_error (enum_names e) i) eqn:Ei; [|discriminate]. injection HN as _ <-.
      inversion DA; subst. exists i. split; [easy|]. apply nth_error_Some. congruence.
  Qed.

  Lemma omap_length {A B} (g : A -> option B) l m : omap g l = Some m -> length m = length l.
  Proof. intros H. apply omap_some in H. symmetry. now apply Forall2_len in H. Qed.

  Lemma signed_value e T v y : signed_sem e = Some T -> denotes true E T v y ->
    exists i, v = RVariant i [] /\ (i < length (enum_names e))%nat.
  Proof.
    unfold signed_sem. intros H D. destruct (en_as_ref e) as [asr|]; [|discriminate]. destruct (en_try_from e) as [tf|]; [|discriminate].
    apply obind_some in H as (zs & HZ & H). apply obind_some in H as (arms & _ & H). apply guard_some in H as [_ [= <-]].
    inversion D as [| | | | | | | | | | | | | | | | | | | | | | | | |? ? ? i z HN| | |]; subst. exists i. split; [easy|].
    apply omap_length in HZ. rewrite <- HZ. apply nth_error_Some. congruence.
  Qed.

  Lemma enum_conv x y l e T v w : first x (type_defs ds) (TdEnum y l) -> enum_facts cfg ds l e ->
    enum_sem e = Some T -> enum_impl_std_trait cfg = false \/ dense ds l -> denotes true E T v w ->
    exists xv, xtype ds dm (TsIdent x) xv /\ same_wire xv w.
  Proof.
    intros F EFS ES M D. pose proof (sd_items SD (first_in F)) as OK. pose proof (EX (first_in F)) as XE. cbn in OK, XE.
    destruct (enum_value ES D) as (i & -> & Hi). destruct (variant_member OK XE EFS Hi) as (a & z & Ha & V & P).
    destruct EFS as (_ & T' & ES' & _ & EF). rewrite ES in ES'. injection ES' as <-.
    destruct (EF E a z Ha V) as (j & Pj & D1 & _). rewrite P in Pj. injection Pj as <-. destruct (D1 M) as (w' & D' & W).
    exists (XEnum z). split; [|apply same_trans with (1 := W); now apply denotes_wire with (1 := D')].
    eapply xt_name_enum; [exact F|]. destruct OK as (_ & _ & _ & VALS & _). destruct (VALS a Ha) as (z' & V' & R & _).
    rewrite (value_is_fun V V') in *. now apply xt_enum with a.
  Qed.

  Lemma signed_conv x y l e T v w : first x (type_defs ds) (TdEnum y l) -> enum_facts cfg ds l e ->
    signed_sem e = Some T -> denotes true E T v w -> exists xv, xtype ds dm (TsIdent x) xv /\ same_wire xv w.
  Proof.
    intros F EFS ES D. pose proof (sd_items SD (first_in F)) as OK. pose proof (EX (first_in F)) as XE. cbn in OK, XE.
    destruct (signed_value ES D) as (i & -> & Hi). destruct (variant_member OK XE EFS Hi) as (a & z & Ha & V & P).
    destruct EFS as (_ & T' & _ & _ & EF).
    destruct (EF E a z Ha V) as (j & Pj & _ & D1). rewrite P in Pj. injection Pj as <-. pose proof (D1 _ ES) as D'.
    exists (XEnum z). split; [|now apply denotes_wire with (1 := D')].
    eapply xt_name_enum; [exact F|]. destruct OK as (_ & _ & _ & VALS & _). destruct (VALS a Ha) as (z' & V' & R & _).
    rewrite (value_is_fun V V') in *. now apply xt_enum with a.
  Qed.

  (** ** One step: values whose parts are known *)
  Definition Ct (n : nat) (t : tyspec) (k : kind) : Prop := forall y ty T v, (xsize y < n)%nat ->
    tok ds t ty (op_of k) -> field_sem f (attr_of k) ty = Some T -> denotes true E T v y ->
    exists x, xtype ds dm t x /\ same_wire x y.
  Definition Cd (n : nat) (d : decl) (k : kind) : Prop := forall y ty T v, (xsize y < n)%nat -> without_max d = d ->
    dtok ds d ty (op_of k) -> field_sem f (attr_of k) ty = Some T -> denotes true E T v y ->
    exists x, xdecl ds dm d x /\ same_wire x y.
  Definition small (n : nat) : Prop :=
    (forall t k, tkind cfg ds t k -> Ct n t k) /\ (forall d k, dkind cfg ds d k -> Cd n d k).

  Section Step.
    Variable n : nat.
    Hypothesis IH : small n.

    Lemma var_conv d ty v y : without_max d = d -> dkind cfg ds d KVar -> dtok ds d ty (op_of KVar) ->
      denotes true E TVariableArray v y -> (xsize y < n)%nat -> exists a, xdecl ds dm d a /\ same_wire a y.
    Proof.
      intros ND K T D L. destruct (dkind_field SD FF K T) as [T' ET]. pose proof (var_field ET) as E'. subst T'.
      inversion D as [| | | | | | | | | | | | | | | | |? vs ys DA| | | | | | | | | | |]; subst. cbn in DA.
      inversion DA as [|? ? v1 vs1 y1 ys1 D1 DN]; subst. inversion DN; subst. cbn in L.
      assert (L1 : (xsize y1 < n)%nat) by lia.
      destruct (proj2 IH _ _ K y1 ty _ v1 L1 ND T ET D1) as (a & X & W).
      exists a. split; [easy|]. apply same_trans with (1 := W). apply same_sym, same_one.
    Qed.

    Lemma arm_conv d Ts vs ys : without_max d = d -> arm_types cfg ds f d Ts -> denotes_all true E Ts vs ys ->
      (xsize (XStruct ys) <= n)%nat -> exists a, xdecl ds dm d a /\ same_wire a (XStruct ys).
    Proof.
      intros ND [[-> ->]|(k & ty & K & T & H)] D L.
      - inversion D; subst. exists XVoid. split; [constructor|]. apply same_sym, same_void.
      - destruct H as [(KK & T' & ET & ->)|[-> ->]]; inversion D as [|? ? v vs1 y ys1 D1 DN]; subst; inversion DN; subst; cbn in L;
          assert (L1 : (xsize y < n)%nat) by lia.
        + assert (FS : field_sem f (attr_of k) ty = Some T') by now destruct KK as [->| ->].
          destruct (proj2 IH _ _ K y ty _ v L1 ND T FS D1) as (a & X & W).
          exists a. split; [easy|]. apply same_trans with (1 := W). apply same_sym, same_one.
        + destruct (var_conv ND K T D1 L1) as (a & X & W).
          exists a. split; [easy|]. apply same_trans with (1 := W). apply same_sym, same_one.
    Qed.

    Lemma fields_conv x l fds : Forall2 (field_facts cfg ds x) l fds -> Forall (fun d => without_max d = d) l ->
      forall ts vs ys, Forall2 (fun fd (q : string * ty) => field_sem f (fd_attr fd) (fd_ty fd) = Some (snd q)) fds ts ->
      denotes_all true E (map snd ts) vs ys -> (xsize (XStruct ys) <= n)%nat ->
      exists xs, xfields ds dm l xs /\ same_wires xs ys.
    Proof.
      induction 1 as [|d fd l fds FD F IHF]; intros ND ts vs ys S D L; inversion S as [|? q ? ts1 S1 S2]; subst; cbn in D.
      - inversion D; subst. exists []. split; [constructor|easy].
      - inversion D as [|? ? v vs1 y ys1 D1 DN]; subst. inversion ND as [|? ? ND1 ND2]; subst. cbn in L.
        destruct (IHF ND2 ts1 vs1 ys1 S2 DN) as (xs & X & W); [cbn; lia|].
        assert (L1 : (xsize y < n)%nat) by lia.
        assert (H : exists a, xdecl ds dm d a /\ same_wire a y).
        { destruct FD as (k & nm & ty & K & _ & _ & T & _ & EA & FT). destruct FT as [[_ ET]|(ET & _ & ->)]; rewrite EA, ET in S1.
          - exact (proj2 IH _ _ K y ty _ v L1 ND1 T S1 D1).
          - cbn in S1. destruct (ty_sem f ty) as [T'|] eqn:E'; [|discriminate]. injection S1 as S1. rewrite <- S1 in D1.
            inversion D1 as [| | | | | | | | | | | |? ? ? D2| | | | | | | | | | | | | | | |]; subst.
            exact (proj2 IH _ _ K y ty _ v L1 ND1 T E' D2). }
        destruct H as (a & XA & WA). exists (a :: xs). split; [now constructor|now apply same_cons].
    Qed.

    Section Union.
      Variables (t : tyspec) (nm : string) (specs : list cspec) (dflt : option decl) (cty : rty).
      Variables (cs : list (ent * variant)) (vs dvs : list variant) (u : union_item).
      Hypothesis UF : union_facts cfg ds t specs dflt cty cs vs dvs u.
      Hypothesis DO : disc_ok cfg ds t (labels specs).
      Hypothesis UX : union_exact cfg ds (UBody (DVariable t nm) specs dflt).
      Hypothesis NC : forall ls d, In (CaseSpec ls d) specs -> without_max d = d.
      Hypothesis ND : forall d, dflt = Some d -> without_max d = d.
      Let ut := TsUnion (UBody (DVariable t nm) specs dflt).

      Lemma case_xv c d a : In c cs -> xtype ds dm t d -> number_of d (ez (fst c)) -> xdecl ds dm (ed (fst c)) a ->
        xtype ds dm ut (XUnion d a).
      Proof.
        intros Hc X N XA. destruct (uf_cases UF) as [p CF]. destruct (cf_cases CF Hc) as [(ls & H1 & H2 & H3) _].
        now apply xt_case with (ez (fst c)) ls (ev (fst c)) (ed (fst c)).
      Qed.

      Lemma case_arm c : In c cs -> without_max (ed (fst c)) = ed (fst c).
      Proof. intros Hc. destruct (uf_cases UF) as [p CF]. destruct (cf_cases CF Hc) as [(ls & H1 & _) _]. now apply NC with ls. Qed.

      Lemma case_disc c : In c cs -> exists d, xtype ds dm t d /\ number_of d (ez (fst c)).
      Proof.
        intros Hc. destruct (uf_cases UF) as [p CF]. destruct (cf_cases CF Hc) as [L _]. pose proof (label_entry_in L) as I.
        destruct L as (ls & _ & _ & V). destruct UX as [H _]. now apply (H t nm (ev (fst c))).
      Qed.

      Lemma no_default : dm = false -> dvs = [].
      Proof. intros M. destruct UX as (_ & H & _). pose proof (uf_default UF) as D. now rewrite (H M) in D. Qed.

      Lemma label_exists v : In v (labels specs) -> exists z, label_is ds v z.
      Proof.
        intros Hv. pose proof DO as D. unfold disc_ok in D.
        assert (N : (exists x z, v = VIdent x /\ x <> "FALSE"%string /\ x <> "TRUE"%string /\ value_is ds v z) -> exists z, label_is ds v z).
        { intros (x & z & -> & N1 & N2 & V). exists z. right. right. split; [congruence|]. split; [congruence|easy]. }
        destruct t; try easy.
        - destruct D as (_ & D & _). apply N. destruct (D v Hv) as (x & z & H1 & H2 & H3 & H4 & _). eauto 8.
        - destruct D as (_ & D & _). destruct (D v Hv) as [->| ->]; [exists 0; now left|exists 1; right; now left].
        - destruct D as (_ & D & _). apply N. destruct (D v Hv) as (xx & z & H1 & H2 & H3 & H4 & _). eauto 8.
      Qed.
      Lemma labels_nodup : NoDup (labels specs).
      Proof. pose proof DO as D. unfold disc_ok in D. destruct t; try easy; apply D. Qed.

      Lemma serde_case i va : union_complement_index cfg = true -> nth_error (un_variants u) i = Some va ->
        exists c, In c cs /\ va = snd c /\ ez (fst c) = Z.of_nat i.
      Proof.
        intros ci H. pose proof (complement_not_union ci) as M2. rewrite (uf_variants UF), (no_default M2), app_nil_r in H.
        destruct (uf_cases UF) as [p CF]. destruct (cf_fill CF ci) as (_ & F & _).
        destruct UX as (_ & _ & UC). destruct (UC ci) as [BL BB].
        assert (BC : forall c, In c cs -> 0 <= ez (fst c) < zlen (labels specs)).
        { intros c Hc. destruct (cf_cases CF Hc) as [L _]. pose proof (label_entry_in L) as I. destruct L as (ls & _ & _ & V). now apply (BL (ev (fst c))). }
        assert (LV : (length vs <= length (labels specs))%nat).
        { destruct (cf_ends CF ci) as [[Et L2]|[->|(c & Hc & L2)]]; [|cbn; lia|].
          - specialize (BB nm ltac:(now rewrite Et)). unfold zlen in *. lia.
          - specialize (BC c Hc). unfold zlen in *. lia. }
        assert (LC : (length (labels specs) <= length cs)%nat).
        { rewrite <- (map_length (fun c => ev (fst c)) cs). apply NoDup_incl_length; [exact labels_nodup|].
          intros v Hv. destruct (label_exists Hv) as [z Hz]. unfold labels in Hv. apply in_flat_map in Hv as ([ls d] & H1 & H2).
          destruct (cf_entry CF H1 H2 Hz) as [w Hw]. apply in_map_iff. now exists ((z, d, v), w). }
        assert (HI : (i < length (labels specs))%nat).
        { assert (N : nth_error vs i <> None) by congruence. apply nth_error_Some in N. lia. }
        destruct (@pigeon _ cs (fun c => Z.to_nat (ez (fst c))) (length (labels specs))) with (i := i) as (c & Hc & Ec); try easy.
        - apply NoDup_map_in; [now apply NoDup_map_inv with (1 := cf_nums CF)|]. intros a b Ha Hb EQ.
          pose proof (BC a Ha). pose proof (BC b Hb). apply NoDup_map_inj with (1 := cf_nums CF); try easy. lia.
        - intros c Hc. specialize (BC c Hc). unfold zlen in BC. lia.
        - exists c. split; [easy|]. specialize (BC c Hc). specialize (F c Hc). rewrite Z.sub_0_r, Ec in F. split; [congruence|lia].
      Qed.

      Lemma Forall2_nth_r {A B} (P : A -> B -> Prop) l m : Forall2 P l m -> forall i b, nth_error m i = Some b ->
        exists a, nth_error l i = Some a /\ P a b.
      Proof.
        induction 1 as [|a b l m h H IH']; intros [|i] c Hc; try discriminate.
        - injection Hc as <-. now exists a.
        - now apply IH'.
      Qed.

      Lemma serde_conv T v y : union_complement_index cfg = true -> union_sem f u = Some T -> denotes true E T v y ->
        (xsize y <= n)%nat -> exists x, xtype ds dm ut x /\ same_wire x y.
      Proof.
        intros ci ET D L. pose proof (complement_not_union ci) as M2.
        destruct (serde_means SD FF UF ci) as (vss & ET' & FV). rewrite ET in ET'. injection ET' as ->.
        assert (CASE : forall i name sh, nth_error vss i = Some (name, sh) -> exists c d,
          In c cs /\ ez (fst c) = Z.of_nat i /\ xtype ds dm t d /\ number_of d (ez (fst c)) /\ same_wire d (XEnum (Z.of_nat i)) /\
          ((sh = VUnit /\ ed (fst c) = DVoid) \/ exists k ty T', dkind cfg ds (ed (fst c)) k /\ dtok ds (ed (fst c)) ty (op_of k) /\
             field_sem f (attr_of k) ty = Some T' /\ sh = VNewtype T')).
        { intros i name sh HN. destruct (Forall2_nth_r FV HN) as (va & HV & EV). destruct (serde_case ci HV) as (c & Hc & -> & EZ).
          destruct (case_disc Hc) as (d & X & N). exists c, d. split; [easy|]. split; [easy|]. split; [easy|]. split; [easy|].
          destruct (uf_cases UF) as [p CF]. destruct (cf_cases CF Hc) as [_ (_ & _ & _ & R & R' & _)]. specialize (R' ci).
          split.
          - rewrite EZ in *. apply same_trans with (XInt (Z.of_nat i)); [|apply same_sym, same_enum_int].
            replace (Z.of_nat i) with (as_i32 (Z.of_nat i)); [now apply (disc_wire X)|]. unfold as_i32. destruct (Z.ltb_spec (Z.of_nat i) (2 ^ 31)); lia.
          - destruct (case_in UF Hc) as [_ (EN & tys & AF & ETY)]. unfold serde_variant_sem in EV. rewrite EN, ETY in EV.
            unfold disc_tys in EV. rewrite M2 in EV. cbn [token_id obind app] in EV.
            destruct (arm_serde SD FF ci AF) as [(-> & Ea & Ed)|(ty & T & -> & FT & [[_ Z]|(k & ty' & T' & K & TK & FT' & Z)])].
            + rewrite Ea in EV. injection EV as _ <-. now left.
            + discriminate.
            + rewrite FT in EV. injection EV as _ <-. right. exists k, ty', T'. easy. }
        inversion D as [| | | | | | | | | | | | | | | | | | |? i name HN|? i name t' v' y' HN _ D'|? i name ? ? ? HN|? i name ? ? ? HN| | | | | |]; subst;
          destruct (CASE _ _ _ HN) as (c & d & Hc & EZ & X & N & W & [[Es Ed]|(k & ty & T' & K & TK & FS & Es)]); try discriminate.
        - exists (XUnion d XVoid). split; [apply (case_xv Hc X N); rewrite Ed; constructor|].
          apply same_trans with d; [|easy]. apply same_union_void, same_refl.
        - injection Es as ->. cbn in L. assert (L1 : (xsize y' < n)%nat) by lia.
          destruct (proj2 IH _ _ K y' ty _ v' L1 (case_arm Hc) TK FS D') as (a & XA & WA).
          exists (XUnion d a). split; [exact (case_xv Hc X N XA)|now apply same_union].
      Qed.

      Lemma indexer_conv T v y : union_impl_indexer cfg = true -> union_sem f u = Some T -> denotes true E T v y ->
        (xsize y <= n)%nat -> exists x, xtype ds dm ut x /\ same_wire x y.
      Proof.
        intros M1 ET D L. assert (M2 : union_impl_union cfg = false) by (destruct (sd_union_mode SD); congruence).
        assert (ci : union_complement_index cfg = false) by (unfold union_complement_index; now rewrite M1).
        destruct (indexer_means SD FF UF M1) as (vss & ET' & NV & FV). rewrite ET in ET'. injection ET' as ->.
        inversion D as [| | | | | | | | | | | | | | | | | | | | | | | | | |? ? ? ? i name ts vv ys z _ HN HA HR _ DA| |]; subst.
        destruct (Forall2_nth_r FV HN) as (va & HV & EV).
        destruct (in_variants UF (nth_error_In _ _ HV)) as [(c & Hc & ->)|[(ci' & _)|H]]; [|congruence|now rewrite (no_default M2) in H].
        destruct (case_in UF Hc) as [_ (EN & tys & AF & ETY)]. unfold indexer_variant_sem in EV. rewrite EN, ETY in EV.
        unfold disc_tys in EV. rewrite M2 in EV. cbn [token_id obind app] in EV.
        destruct (arm_plain SD FF ci AF) as (Ea & _ & Ts & EO & AT). rewrite Ea, EO in EV. injection EV as <- <-.
        assert (AZ : assoc String.eqb (ename (fst c)) (map (fun c => (ename (fst c), as_i32 (ez (fst c)))) cs) = Some (as_i32 (ez (fst c)))).
        { apply assoc_in_nodup; [|apply in_map_iff; now exists c]. rewrite map_map. cbn. rewrite <- (map_map fst ename). apply (uf_names UF). }
        rewrite HA in AZ. injection AZ as ->.
        destruct (case_disc Hc) as (d & X & N). cbn [xsize] in L. assert (L1 : (xsize (XStruct ys) <= n)%nat) by (cbn in *; lia).
        destruct (arm_conv (case_arm Hc) AT DA L1) as (a & XA & WA).
        exists (XUnion d a). split; [exact (case_xv Hc X N XA)|]. apply same_union; [|easy].
        now apply (disc_wire X); [|apply (nums_small UF Hc)].
      Qed.

      Lemma union_disc dt v y : union_impl_union cfg = true -> ty_sem f cty = Some dt -> denotes true E dt v y -> (xsize y < n)%nat ->
        exists d z, xtype ds dm t d /\ number_of d z /\ same_wire d y /\
          forall c q, In c cs -> pat_sem f cty (pat_of cfg ds t (fst c)) = Some q -> (rval_eqb v q = true <-> ez (fst c) = z).
      Proof.
        intros M DT D L. destruct (uf_cases UF) as [p CF]. destruct (cf_tok CF) as (k & K & T).
        assert (KK : exists k', tkind cfg ds t k' /\ attr_of k' = ANone /\ op_of k' = op_of k /\
          forall d, xtype ds dm t d -> exists z, number_of d z).
        { assert (UI : is_uint ds t -> exists k', tkind cfg ds t k' /\ attr_of k' = ANone /\ op_of k' = op_of k /\
            forall d, xtype ds dm t d -> exists z, number_of d z).
          { intros U. exists KPlain. split; [now apply uint_kind|]. split; [easy|]. split.
            - symmetry; exact (proj1 (op_kind ds cfg) _ _ (uint_kind cfg U) _ _ T).
            - intros d X. destruct (uint_value U X) as (z & -> & _). exists z. right. now left. }
          assert (EI : forall e y l, t = TsIdent e -> first e (type_defs ds) (TdEnum y l) -> (enum_impl_std_trait cfg = true -> dense ds l) ->
            exists k', tkind cfg ds t k' /\ attr_of k' = ANone /\ op_of k' = op_of k /\
            forall d, xtype ds dm t d -> exists z, number_of d z).
          { intros e y' l -> F DN.
            assert (XN : forall d, xtype ds dm (TsIdent e) d -> exists z, number_of d z).
            { intros d XD. inversion XD as [| | | | | | | | | | | | | | |? d' ? F'|? ? ? ? F' X'|? ? ? ? F'|? ? ? ? F']; subst;
                try (discriminate (first_fun F F')). inversion X'; subst. eexists. right. right. reflexivity. }
            destruct (enum_impl_std_trait cfg) eqn:st.
            - assert (K' : tkind cfg ds (TsIdent e) KDense) by (eapply tk_dense; eauto).
              exists KDense. split; [easy|]. split; [easy|]. split; [symmetry; exact (proj1 (op_kind ds cfg) _ _ K' _ _ T)|easy].
            - assert (K' : tkind cfg ds (TsIdent e) KPlain) by (eapply tk_enum; eauto).
              exists KPlain. split; [easy|]. split; [easy|]. split; [symmetry; exact (proj1 (op_kind ds cfg) _ _ K' _ _ T)|easy]. }
          destruct (TsBool_dec t) as [Et|NB].
          - rewrite Et in *. exists KPlain. split; [constructor|]. split; [easy|]. split; [symmetry; exact (proj1 (op_kind ds cfg) _ _ (tk_bool cfg ds) _ _ T)|].
            intros d X. inversion X; subst. eexists. right. right. reflexivity.
          - pose proof DO as DO'. unfold disc_ok in DO'. rewrite M in DO'. destruct t; try easy;
              destruct DO' as (_ & _ & _ & [U|(e & y' & l & E' & F & N & H)]); eauto. }
        destruct KK as (k' & K' & A & O & XN). rewrite <- O in T.
        assert (FS : field_sem f (attr_of k') cty = Some dt) by (rewrite A; exact DT).
        destruct (proj1 IH _ _ K' y cty dt v L T FS D) as (d & X & W). destruct (XN d X) as [z N].
        exists d, z. split; [easy|]. split; [easy|]. split; [easy|].
        destruct (disc_value SD FF HE UF DO X N M DT) as (v' & y' & D' & W' & H).
        assert (v = v') as ->; [|exact H]. apply (denotes_value D D'). apply same_trans with d; [now apply same_sym|easy].
      Qed.

      Lemma union_conv T v y : union_impl_union cfg = true -> union_sem f u = Some T -> denotes true E T v y ->
        (xsize y <= n)%nat -> exists x, xtype ds dm ut x /\ same_wire x y.
      Proof.
        intros M2 ET D L. assert (ci : union_complement_index cfg = false) by (unfold union_complement_index; now rewrite M2, andb_comm).
        destruct (union_means SD FF UF DO M2) as (vss & dt & names & ET' & DT & NV & FV & FN). rewrite ET in ET'. injection ET' as ->.
        inversion D as [| | | | | | | | | | | | | | | | | | | | | | | | | | |? ? ? ? i name ts v0 vv yd ys _ HN D0 HT DA|]; subst.
        cbn [xsize] in L. assert (L0 : (xsize yd < n)%nat) by lia. assert (L1 : (xsize (XStruct ys) <= n)%nat) by (cbn in *; lia).
        destruct (union_disc M2 DT D0 L0) as (d & z & X & N & W & PV). pose proof (assoc_names PV FN) as AN.
        destruct (HT eq_refl) as [HT' _]. destruct (uf_cases UF) as [p CF].
        assert (VS : forall va q, In va (un_variants u) -> union_variant_sem f cty va = Some q -> In q vss).
        { intros va q Hv Hq. destruct (Forall2_in_l FV Hv) as (q' & H1 & H2). congruence. }
        pose proof (nth_error_In _ _ HN) as IN'.
        assert (FN' : forall va q, In va (un_variants u) -> union_variant_sem f cty va = Some q -> fst q = name -> q = (name, Some ts)).
        { intros va q Hv Hq E1. apply NoDup_map_inj with (1 := NV); try easy. now apply VS with va. }
        destruct (assoc rval_eqb v0 names) as [n0|].
        - destruct AN as (c & Hc & EZ & ->). injection HT' as HT'.
          destruct (case_in UF Hc) as [HI (EN & tys & AF & ETY)].
          destruct (arm_plain SD FF ci AF) as (Ea & _ & Ts & EO & AT).
          assert (EV : union_variant_sem f cty (snd c) = Some (ename (fst c), Some Ts)).
          { unfold union_variant_sem. rewrite EN, ETY, Ea. unfold disc_tys. rewrite M2. cbn. now rewrite rty_eqb_refl, EO. }
          pose proof (FN' _ _ HI EV HT') as EQ. injection EQ as _ ->.
          destruct (arm_conv (case_arm Hc) AT DA L1) as (a & XA & WA).
          exists (XUnion d a). split; [|now apply same_union]. apply (case_xv Hc X); [now rewrite EZ|easy].
        - cbn [with_dflt] in HT'. destruct (TsBool_dec t) as [Et|NB]; [rewrite Et in HT'; discriminate|].
          assert (TT : forall {A} (a b : A), match t with TsBool => a | _ => b end = b) by (intros; now destruct t).
          rewrite TT in HT'. destruct dflt as [arm|] eqn:ED; [|discriminate]. injection HT' as HT'.
          pose proof (uf_default UF) as DA'. destruct DA' as (tys & EDV & DF).
          assert (HI : In (Variant ANone default_id (disc_tys cfg cty ++ tys)) (un_variants u)).
          { rewrite (uf_variants UF), EDV. apply in_or_app. right. now left. }
          assert (AT : exists Ts, omap (ty_sem f) tys = Some Ts /\ arm_types cfg ds f arm Ts).
          { destruct DF as [[-> ->]|(k & ty & K & TK & -> & KU)]; [exists []; split; [easy|now left]|].
            destruct (arm_ty SD FF K TK (KU M2)) as [T' E']. exists [T']. cbn. rewrite E'. split; [easy|]. right. exists k, ty. split; [easy|]. split; [easy|].
            left. split; [now apply KU|eauto]. }
          destruct AT as (Ts & EO & AT).
          assert (EV : union_variant_sem f cty (Variant ANone default_id (disc_tys cfg cty ++ tys)) = Some ("Default"%string, Some Ts)).
          { unfold union_variant_sem, disc_tys. rewrite M2. cbn. now rewrite rty_eqb_refl, EO. }
          pose proof (FN' _ _ HI EV HT') as EQ. injection EQ as _ ->.
          destruct (arm_conv (ND eq_refl) AT DA L1) as (a & XA & WA).
          exists (XUnion d a). split; [|now apply same_union]. unfold ut. apply xt_default with z; try easy.
          intros v Hv Lv. unfold labels in Hv. apply in_flat_map in Hv as ([ls d'] & H1 & H2).
          destruct (cf_entry CF H1 H2 Lv) as [w Hw]. now apply (AN _ Hw).
      Qed.
    End Union.

    Lemma item_ref x td i T v y : first x (type_defs ds) td -> is_typedef td = false -> find_item f (camel x) = Some i ->
      field_sem f ANone (YName (camel x)) = Some T -> denotes true E T v y ->
      exists T', item_sem f i = Some T' /\ denotes true E T' v y.
    Proof.
      intros F N FI FS D. cbn in FS. rewrite FI in FS. injection FS as <-. destruct (env_lookup HE FI) as (T' & IT & LK).
      inversion D as [| | | | | | | | | | | | | | | | | | | | | | | | | | | |? T2 ? ? LK' D']; subst.
      exists T'. split; [easy|]. congruence.
    Qed.

    Lemma all_conv t k ty T' vs ys : tkind cfg ds t k -> tok ds t ty (op_of k) -> field_sem f (attr_of k) ty = Some T' ->
      Forall2 (denotes true E T') vs ys -> (xsize (XStruct ys) <= n)%nat ->
      exists xs, xall ds dm t xs /\ same_wires xs ys /\ length xs = length ys.
    Proof.
      intros K T FS F. induction F as [|v y vs ys D F IHF]; intros L; [exists []; split; [constructor|easy]|]. cbn in L.
      destruct IHF as (xs & X & W & LL); [cbn; lia|]. assert (L1 : (xsize y < n)%nat) by lia.
      destruct (proj1 IH _ _ K y ty T' v L1 T FS D) as (x & X1 & W1). exists (x :: xs). split; [now constructor|].
      split; [now apply same_cons|cbn; congruence].
    Qed.

    Ltac itself := match goal with |- exists x, _ /\ same_wire x ?w => exists w; split; [|apply same_refl] end.
    Ltac prim TK FS D := inversion TK; subst; cbn in FS; injection FS as <-; inversion D; subst.

    Lemma step : small (S n).
    Proof.
      assert (EN : forall x y l k T v w, first x (type_defs ds) (TdEnum y l) -> attr_of k = ANone ->
        enum_impl_std_trait cfg = false \/ dense ds l -> forall ty, tok ds (TsIdent x) ty (op_of k) -> field_sem f (attr_of k) ty = Some T ->
        denotes true E T v w -> exists xv, xtype ds dm (TsIdent x) xv /\ same_wire xv w).
      { intros x y l k T v w F A M ty TK FS D. pose proof (item_named F eq_refl TK) as ->. rewrite A in FS.
        destruct (find_enum_facts SD FF F eq_refl) as (i & FI & en & -> & EFS).
        destruct (item_ref F eq_refl FI FS D) as (T' & IT & D'). exact (enum_conv F EFS IT M D'). }

      apply tkind_dkind_ind.
      - intros sg y ty T v L TK FS D. prim TK FS D. match goal with H : xint _ _ _ = Some _ |- _ => rename H into X end.
        destruct sg; cbn in *; injection X as <-; itself; constructor; cbn in *; lia.
      - intros sg y ty T v L TK FS D. prim TK FS D. match goal with H : xint _ _ _ = Some _ |- _ => rename H into X end.
        destruct sg; cbn in *; injection X as <-; itself; constructor; cbn in *; lia.
      - intros y ty T v L TK FS D. prim TK FS D. itself; now constructor.
      - intros y ty T v L TK FS D. prim TK FS D. itself; now constructor.
      - intros y ty T v L TK FS D. prim TK FS D. exists (XEnum (if b then 1 else 0)). split; [constructor|]. apply same_enum_uint. destruct b; lia.
      - intros sg y ty T v L TK FS D. prim TK FS D. match goal with H : xint _ _ _ = Some _ |- _ => rename H into X end.
        destruct sg; cbn in *; injection X as <-; itself; constructor; cbn in *; lia.
      - intros sg y ty T v L TK FS D. prim TK FS D. match goal with H : xint _ _ _ = Some _ |- _ => rename H into X end.
        destruct sg; cbn in *; injection X as <-; itself; constructor; cbn in *; lia.
      - intros x y l F M w ty T v L TK FS D. eapply (EN x y l KPlain); eauto.
      - intros x y l F M w ty T v L TK FS D. pose proof (item_named F eq_refl TK) as ->.
        destruct (find_enum_facts SD FF F eq_refl) as (i & FI & en & -> & EFS).
        cbn in FS. unfold find_enum in FS. rewrite FI in FS. cbn in FS. exact (signed_conv F EFS FS D).
      - intros x y l F M DN w ty T v L TK FS D. eapply (EN x y l KDense); eauto.
      - (* a struct *)
        intros x y l F w ty T v L TK FS D. pose proof (item_named F eq_refl TK) as ->.
        destruct (find_item_of SD FF F eq_refl) as (i & _ & FI & _ & _ & s & -> & SF).
        destruct (item_ref F eq_refl FI FS D) as (T' & IT & D'). cbn in IT.
        destruct (struct_means SD FF SF) as (ts & ES & FT). rewrite IT in ES. injection ES as ->.
        inversion D' as [| | | | | | | | | | | | | | | | |? vs ys DA| | | | | | | | | | |]; subst.
        pose proof (no_max (first_in F)) as M. injection M as M.
        destruct (fields_conv SF (map_fixed M) FT DA) as (xs & X & W); [lia|].
        exists (XStruct xs). split; [|now apply same_struct]. apply xt_name_struct with y l; [easy|now constructor].
      - (* a union *)
        intros x y u F w ty T v L TK FS D. pose proof (item_named F eq_refl TK) as ->. destruct u as [c specs dflt].
        pose proof (sd_items SD (first_in F)) as SU. destruct SU as (_ & (t & nm & -> & DO) & _).
        pose proof (EX (first_in F)) as UX. cbn beta iota in UX. pose proof (no_max (first_in F)) as M. injection M as M1 M2.
        destruct (find_item_of SD FF F eq_refl) as (i & _ & FI & IF).
        pose proof IF as (_ & _ & ui & -> & t' & nm' & cty & cs & vs & dvs & Ec & UF). injection Ec as <- <-.
        destruct (item_ref F eq_refl FI FS D) as (T' & IT & D'). cbn in IT.
        assert (NC : forall ls d, In (CaseSpec ls d) specs -> without_max d = d).
        { intros ls d H. pose proof (map_fixed M1) as FX. rewrite Forall_forall in FX. specialize (FX _ H). cbn in FX. congruence. }
        assert (ND : forall d, dflt = Some d -> without_max d = d) by (intros d ->; cbn in M2; congruence).
        assert (L' : (xsize w <= n)%nat) by lia.
        assert (H : exists xv, xtype ds dm (TsUnion (UBody (DVariable t nm) specs dflt)) xv /\ same_wire xv w).
        { destruct (union_modes cfg) as [U1|[U2|ci]].
          - exact (indexer_conv UF UX NC U1 IT D' L').
          - exact (union_conv UF DO UX NC ND U2 IT D' L').
          - exact (serde_conv UF DO UX NC ci IT D' L'). }
        destruct H as (xv & X & W). exists xv. split; [|easy]. now apply xt_name_union with y (UBody (DVariable t nm) specs dflt).
      - intros x d k F K P KK w ty T v L TK FS D. pose proof (no_max (first_in F)) as M. injection M as M.
        inversion TK as [| | | | | | |? td F1 N1|? d' ? ? F1 D1]; subst; [rewrite <- (first_fun F F1) in N1; discriminate|].
        pose proof (first_fun F F1) as Eq. injection Eq as <-.
        destruct (P w ty T v L M D1 FS D) as (xv & X & W). exists xv. split; [|easy]. now apply xt_typedef with d.
      - intros x d F K P w ty T v L TK FS D. pose proof (no_max (first_in F)) as M. injection M as M.
        inversion TK as [| | | | | | |? td F1 N1|? d' ? ? F1 D1]; subst; [rewrite <- (first_fun F F1) in N1; discriminate|].
        pose proof (first_fun F F1) as Eq. injection Eq as <-.
        destruct (P w ty T v L M D1 FS D) as (xv & X & W). exists xv. split; [|easy]. now apply xt_typedef with d.
      - intros t x k K P w ty T v L M TK FS D. inversion TK as [? ? ? ? Ht| | | | | | |]; subst.
        destruct (P w ty T v L Ht FS D) as (xv & X & W). exists xv. split; [now constructor|easy].
      - intros t x c z K P SF R w ty T v L M TK FS D. inversion TK as [|? ? ? len ty' op' Ht LT| | | | | |]; subst.
        inversion LT as [? z' S'|]; subst. rewrite (stands_fun S' SF) in *.
        cbn [attr_of field_sem ty_sem] in FS. destruct (ty_sem f ty') as [T'|] eqn:ET; [|discriminate]. cbn [obind] in FS.
        destruct (array_len f (TokNum z) false) as [m|] eqn:EL; [|discriminate]. injection FS as <-. apply array_num in EL as [_ ->].
        inversion D as [| | | | | | | | | | | | | |? ? vs ys DA| | | | | | | | | | | | | |]; subst.
        destruct (denotes_all_repeat DA) as [LV FD].
        destruct (all_conv K Ht ET FD) as (xs & X & W & LX); [cbn in *; lia|].
        exists (XFArray xs). split; [|now apply same_farray]. constructor; [|easy].
        replace (zlen xs) with z; [now constructor|]. pose proof (Forall2_len FD). unfold zlen. lia.
      - intros t x max k K P KK w ty T v L M TK FS D. injection M as <-. cbn [op_of attr_of] in TK, FS.
        assert (Q : forall T', T = TSeq T' -> (forall vs ys, Forall2 (denotes true E T') vs ys -> (xsize (XStruct ys) <= n)%nat ->
           exists xs, xall ds dm t xs /\ same_wires xs ys /\ length xs = length ys) ->
           exists xv, xdecl ds dm (DVariableArray t x None) xv /\ same_wire xv w).
        { intros T' -> H. inversion D as [| | | | | | | | | | | | |? vs ys LV DA| | | | | | | | | | | | | | |]; subst.
          destruct (denotes_all_repeat DA) as [_ FD]. destruct (H _ _ FD) as (xs & X & W & LX); [cbn in *; lia|].
          exists (XArray xs). pose proof (Forall2_len FD) as FL. split; [constructor; [split; [|easy]; unfold zlen in *; lia|easy]|].
          apply same_array; [|easy]. easy. }
        inversion TK as [| |? ? ? ty' Ht|? ? ? ty' op' Ht NV| | | |]; subst.
        + injection FS as <-. apply (Q TVariableArray); [easy|].
          assert (k = KVar) as ->.
          { destruct KK as [->| ->]; [|easy]. pose proof (proj1 (kind_sem (IN SD) (find_enum_facts SD FF) (const_means SD FF)) t KPlain K ty' _ Ht) as [H _]. discriminate H. }
          destruct (tkind_field SD FF K Ht) as [T' ET]. pose proof (var_field ET) as E'. subst T'.
          clear - IH K Ht ET. induction 1 as [|v y vs ys D F IHF]; intros L; [exists []; split; [constructor|easy]|]. cbn in L.
          destruct IHF as (xs & X & W & LL); [cbn; lia|].
          inversion D as [| | | | | | | | | | | | | | | | |? vs' ys' DA| | | | | | | | | | |]; subst. cbn in DA.
          inversion DA as [|? ? v1 vs1 y1 ys1 D1 DN]; subst. inversion DN; subst. cbn in L.
          assert (L1 : (xsize y1 < n)%nat) by lia.
          destruct (proj1 IH _ _ K y1 ty' _ v1 L1 Ht ET D1) as (a & XA & WA).
          exists (a :: xs). split; [now constructor|]. split; [|cbn; congruence]. apply same_cons; [|easy].
          apply same_trans with (1 := WA). apply same_sym, same_one.
        + pose proof (proj1 (kind_sem (IN SD) (find_enum_facts SD FF) (const_means SD FF)) t k K ty' _ Ht) as [HO _].
          assert (k = KPlain) as -> by (destruct KK as [->| ->]; [easy|discriminate HO]).
          cbn in FS. destruct (ty_sem f ty') as [T'|] eqn:ET; [|discriminate]. injection FS as <-. apply (Q T'); [easy|].
          intros vs ys FD LY. exact (all_conv K Ht ET FD LY).
      - intros x v LO w ty T rv L M TK FS D. inversion TK as [| | | |? ? len LT| | |]; subst.
        cbn [attr_of field_sem] in FS. destruct (array_len f len true) as [m|] eqn:EL; [|discriminate]. injection FS as <-.
        destruct (len_sem (IN SD) (find_enum_facts SD FF) (const_means SD FF) LO LT) as (z & V' & R & EL'). rewrite EL in EL'. injection EL' as ->.
        inversion D as [| | | | | | | | | | | | | | | | | | | | | | |? bs LB| | | | |]; subst.
        exists (XFOpaque bs). split; [|apply same_refl]. constructor. replace (zlen bs) with z; [easy|]. unfold zlen. lia.
      - intros x max w ty T v L M TK FS D. injection M as <-. inversion TK; subst. injection FS as <-.
        inversion D as [| | | | | | | | | | | | | | | | | | | | | | | |bs LB| | | |]; subst.
        exists (XOpaque bs). split; [|apply same_refl]. constructor. now split.
      - intros x max w ty T v L M TK FS D. injection M as <-. inversion TK; subst. injection FS as <-.
        inversion D as [| | | | |bs U LB| | | | | | | | | | | | | | | | | | | | | | |]; subst.
        exists (XString bs). split; [|apply same_refl]. constructor; [easy|now split].
      - intros t x K P w ty T v L M TK FS D. inversion TK as [| | | | | | |? ? ty' op' Ht]; subst. cbn in FS.
        destruct (ty_sem f ty') as [T'|] eqn:ET; [|discriminate]. injection FS as <-.
        inversion D as [| | | | | | |?|? v' y' D'| | | | | | | | | | | | | | | | | | | |]; subst.
        + exists XNone. split; [constructor|apply same_refl].
        + cbn in L. assert (L1 : (xsize y' < S n)%nat) by lia. destruct (P y' ty' T' v' L1 Ht ET D') as (a & X & W).
          exists (XSome a). split; [now constructor|now apply same_some].
    Qed.
  End Step.

  Lemma conv n : small n.
  Proof. induction n as [|n IH]; [split; intros ? ? ? ? ? ? ? L; lia|exact (step IH)]. Qed.

  (** ** What is written from a decoded value is read back *)
  Lemma ty_rev t T : ty_sem f t = Some T -> reversible T.
  Proof.
    revert T. induction t as [| | | | |x|t IHt len cast|t IHt| |t IHt|t IHt|]; intros T H; cbn in H; try (injection H as <-; cbn; easy).
    - destruct (find_item f x); [|discriminate]. now injection H as <-.
    - apply obind_some in H as (T1 & H1 & H). apply obind_some in H as (k & _ & [= <-]). cbn. auto.
    - destruct (ty_sem f t) as [T1|]; [|discriminate]. injection H as <-. cbn. auto.
    - destruct (ty_sem f t) as [T1|]; [|discriminate]. injection H as <-. cbn. auto.
    - destruct (ty_sem f t) as [T1|]; [|discriminate]. injection H as <-. cbn. auto.
  Qed.
  Lemma tys_rev ts Ts : omap (ty_sem f) ts = Some Ts -> fold_right (fun t P => reversible t /\ P) True Ts.
  Proof.
    intros H. apply omap_some in H. apply fold_all. apply Forall_forall. intros T HT. destruct (Forall2_in_r H HT) as (t & _ & E'). now apply ty_rev with t.
  Qed.

  Lemma enum_of e : In (IEnum e) (fi_types f) -> exists l, enum_ok cfg ds l /\ enum_exact cfg ds l /\ enum_facts cfg ds l e.
  Proof.
    intros H. destruct FF as [F _]. destruct (Forall2_in_r F H) as ([x td] & Hd & FI). apply filter_In in Hd as [Hd _].
    pose proof (sd_items SD Hd) as OK. pose proof (EX Hd) as XE. destruct FI as (_ & _ & FI). cbn in *.
    destruct td as [d|y l|y l|y [c specs dflt]]; [easy| | |].
    - destruct FI as (e' & [= <-] & EF). eauto.
    - destruct FI as (s & ? & _). discriminate.
    - destruct FI as (u & ? & _). discriminate.
  Qed.

  Lemma signed_rev e T : In (IEnum e) (fi_types f) -> signed_sem e = Some T -> reversible T.
  Proof.
    intros HI H. destruct (enum_of HI) as (l & OK & XE & EF). pose proof EF as (_ & T0 & _ & _ & EV). pose proof H as H0.
    unfold signed_sem in H. destruct (en_as_ref e) as [asr|]; [|discriminate]. destruct (en_try_from e) as [tf|]; [|discriminate].
    apply obind_some in H as (zs & HZ & H). apply obind_some in H as (arms & HA & H). apply guard_some in H as [_ [= <-]].
    pose proof (omap_length HZ) as LZ. cbn. apply CodecLemmas.inverse_settles. split.
    - intros i z Hi. assert (Li : (i < length (enum_names e))%nat) by (rewrite <- LZ; apply nth_error_Some; congruence).
      destruct (variant_member OK XE EF Li) as (a & z' & Ha & V & P). destruct (EV E a z' Ha V) as (j & Pj & _ & D).
      rewrite P in Pj. injection Pj as <-. specialize (D _ H0).
      inversion D as [| | | | | | | | | | | | | | | | | | | | | | | | |? ? ? ? ? HN R HW| | |]; subst. rewrite Hi in HN. injection HN as ->.
      split; [easy|now apply HW].
    - intros z i Hw. unfold with_dflt in Hw. destruct (assoc Z.eqb z arms) as [i'|] eqn:Ea; [|discriminate]. injection Hw as ->.
      apply EmitRun.assoc_mem in Ea as [z' Ea]. apply omap_some in HA. destruct (Forall2_in_r HA Ea) as ([w n'] & _ & E'). cbn in E'.
      destruct (position n' (enum_names e)) as [k|] eqn:P; [|discriminate]. injection E' as _ <-. rewrite LZ. now apply position_lt with (1 := P).
  Qed.

  Lemma field_rev a t T : field_sem f a t = Some T -> reversible T.
  Proof.
    destruct a; cbn.
    - apply ty_rev.
    - destruct t as [| | | | | |t len cast| | | | |]; try discriminate. destruct t as [[] []| | | | | | | | | | |]; try discriminate.
      destruct (array_len f len cast); [|discriminate]. now intros [= <-].
    - destruct t as [| | | | | | |t| | | |]; try discriminate. destruct t as [[] []| | | | | | | | | | |]; try discriminate. now intros [= <-].
    - destruct t as [| | | | |s| | | | | |]; try discriminate. unfold find_enum. destruct (find_item f s) as [[| e| |]|] eqn:FI; try discriminate.
      apply signed_rev. unfold find_item in FI. now apply find_some in FI.
  Qed.

  Lemma enum_rev e T : In (IEnum e) (fi_types f) -> enum_sem e = Some T -> reversible T.
  Proof.
    intros HI H. destruct (enum_of HI) as (l & OK & XE & EF). pose proof H as H0. unfold enum_sem in H. apply guard_some in H as [_ H].
    assert (TE : reversible (TEnum (map (fun x => (x, VUnit)) (enum_names e)))).
    { cbn. generalize (enum_names e). induction l0 as [|n0 l0 IHl]; cbn; [easy|now split]. }
    destruct (en_derive e), (en_indexer e) as [ix|], (en_as_ref e) as [asr|] eqn:AR; try discriminate.
    - destruct (signed_sem e); [|discriminate]. now injection H as <-.
    - now injection H as <-.
    - assert (ST : enum_impl_std_trait cfg = false).
      { destruct (enum_impl_std_trait cfg) eqn:st; [|easy]. destruct EF as (_ & _ & _ & [S _] & _). destruct (S st) as [T' S'].
        unfold signed_sem in S'. rewrite AR in S'. discriminate. }
      pose proof EF as (_ & T0 & ET & _ & EV). rewrite H0 in ET. injection ET as <-.
      unfold indexer_sem in H. apply obind_some in H as (names & _ & H). apply obind_some in H as (index & _ & H).
      apply obind_some in H as (other & _ & H). apply guard_some in H as [_ [= <-]]. cbn.
      assert (D : forall i, (i < length (enum_names e))%nat -> exists y, denotes true E
        (TIndexer (map (fun x => (x, [])) (enum_names e)) index names other) (RVariant i []) y).
      { intros i Li. destruct (variant_member OK XE EF Li) as (a & z & Ha & V & P). destruct (EV E a z Ha V) as (j & Pj & D1 & _).
        rewrite P in Pj. injection Pj as <-. destruct D1 as (y & D1 & _); [now left|]. eauto. }
      assert (L0 : (0 < length (enum_names e))%nat).
      { destruct OK as (NE & _ & _ & VALS & _). destruct l as [|a l]; [easy|]. destruct (VALS a (or_introl eq_refl)) as (z & V & _).
        destruct (EV E a z (or_introl eq_refl) V) as (j & Pj & _). apply position_lt in Pj. lia. }
      split; [apply CodecLemmas.indexer_inverse_settles; split|].
      + destruct (D _ L0) as [y D0]. inversion D0; subst; easy.
      + intros name b Hn. apply in_map_iff in Hn as (n0 & [= <- <-] & Hn). apply In_nth_error in Hn as [i Hi].
        destruct (D i) as [y Di]; [apply nth_error_Some; congruence|].
        inversion Di as [| | | | | | | | | | | | | | | | | | | | | | | | | |? ? ? ? ? nm ts vs xs z _ HN HA R HW| |]; subst.
        rewrite nth_error_map, Hi in HN. injection HN as <- _. exists z. split; [easy|]. split; [easy|now apply HW].
      + generalize (enum_names e). induction l0 as [|n0 l0 IHl]; cbn; [easy|now repeat split].
  Qed.

  Lemma union_rev t nm specs dflt cty cs vs dvs u T : union_facts cfg ds t specs dflt cty cs vs dvs u ->
    disc_ok cfg ds t (labels specs) -> union_exact cfg ds (UBody (DVariable t nm) specs dflt) ->
    union_sem f u = Some T -> reversible T.
  Proof.
    intros UF DO UX H. destruct (union_modes cfg) as [M1|[M2|ci]].
    - destruct (indexer_means SD FF UF M1) as (vss & ET & NV & FV). rewrite H in ET. injection ET as ->.
      assert (M2 : union_impl_union cfg = false) by (destruct (sd_union_mode SD); congruence).
      assert (ci : union_complement_index cfg = false) by (unfold union_complement_index; now rewrite M1).
      cbn. split; [apply CodecLemmas.indexer_inverse_settles; split; [easy|]|].
      + intros name b Hn. destruct (Forall2_in_r FV Hn) as (va & Hv & EV).
        destruct (in_variants UF Hv) as [(c & Hc & ->)|[(ci' & _)|HD]]; [|congruence|now rewrite (no_default UF UX M2) in HD].
        destruct (case_in UF Hc) as [_ (EN & _)]. unfold indexer_variant_sem in EV. rewrite EN in EV. cbn in EV.
        destruct (va_attr (snd c)); try discriminate. destruct (omap (ty_sem f) (va_tys (snd c))); [|discriminate]. injection EV as <- <-.
        exists (as_i32 (ez (fst c))). split; [|split; [now apply as_i32_range, (nums_small UF)|]].
        * apply assoc_in_nodup; [|apply in_map_iff; now exists c].
          rewrite map_map. cbn. rewrite <- (map_map fst ename). apply (uf_names UF).
        * rewrite assocZ_in_nodup with (v := ename (fst c)); [easy| |apply in_map_iff; now exists c].
          rewrite map_map. cbn. destruct (uf_cases UF) as [p CF]. pose proof (cf_nums CF) as N.
          apply NoDup_map_in; [now apply NoDup_map_inv with (1 := N)|]. intros b b' Hb Hb' EB. apply as_i32_inj in EB; [|now apply (nums_small UF)|now apply (nums_small UF)].
          now apply NoDup_map_inj with (1 := N).
      + clear - FV. induction FV as [|va [x ts] l m h FV IHF]; cbn; [easy|]. split; [|easy].
        unfold indexer_variant_sem in h. destruct (token_id (va_name va)); [|discriminate]. cbn in h. destruct (va_attr va); try discriminate.
        destruct (omap (ty_sem f) (va_tys va)) as [Ts|] eqn:ET; [|discriminate]. injection h as _ <-. now apply tys_rev with (1 := ET).
    - destruct (union_means SD FF UF DO M2) as (vss & dt & names & ET & DT & NV & FV & _). rewrite H in ET. injection ET as ->.
      cbn. split; [easy|]. split; [now apply ty_rev with cty|].
      clear - FV. induction FV as [|va [x ts] l m h FV IHF]; cbn; [easy|]. split; [|easy].
      unfold union_variant_sem in h. destruct (token_id (va_name va)); [|discriminate]. cbn in h. destruct (va_attr va); try discriminate.
      destruct (va_tys va) as [|t0 tys]; [discriminate|]. apply guard_some in h as [_ h].
      destruct (omap (ty_sem f) tys) as [Ts|] eqn:ET; [|discriminate]. injection h as _ <-. now apply tys_rev with (1 := ET).
    - destruct (serde_means SD FF UF ci) as (vss & ET & FV). rewrite H in ET. injection ET as ->. cbn.
      clear - FV SD FF EX E HE NM. induction FV as [|va [x sh] l m h FV IHF]; cbn; [easy|]. split; [|easy].
      unfold serde_variant_sem in h. destruct (token_id (va_name va)); [|discriminate]. cbn in h.
      destruct (va_tys va) as [|t0 [|]]; [|  |discriminate].
      + destruct (va_attr va); try discriminate. now injection h as _ <-.
      + destruct (field_sem f (va_attr va) t0) as [T'|] eqn:FS; [|discriminate]. injection h as _ <-. now apply field_rev with (1 := FS).
  Qed.

  Lemma env_rev : env_all reversible E.
  Proof.
    intros x T L. destruct (EmitRun.env_item HE L) as (i & HI & _ & IT).
    pose proof FF as [F _]. destruct (Forall2_in_r F HI) as ([n td] & Hd & FI). apply filter_In in Hd as [Hd _].
    pose proof (sd_items SD Hd) as OK. pose proof (EX Hd) as XE. destruct FI as (_ & _ & FI). cbn [snd] in FI.
    destruct td as [d|y l|y l|y [c specs dflt]]; [easy| | |].
    - destruct FI as (e & -> & _). now apply (enum_rev HI).
    - destruct FI as (s & -> & _). cbn in IT. unfold struct_sem in IT.
      destruct (omap _ (st_fields s)) as [ts|] eqn:O; [|discriminate]. injection IT as <-. apply omap_some in O.
      clear - O SD FF EX E HE NM. cbn. induction O as [|fd [a t] l' m h O IHO]; cbn; [easy|]. split; [|easy].
      destruct (field_sem f (fd_attr fd) (fd_ty fd)) as [T'|] eqn:FS; [|discriminate]. injection h as _ <-. now apply field_rev with (1 := FS).
    - destruct FI as (u & -> & t & nm & cty & cs & vs & dvs & -> & UF). destruct OK as (_ & (t' & nm' & [= <- <-] & DO) & _).
      exact (union_rev UF DO XE IT).
  Qed.

  Lemma decoded x td bs n v : first x (type_defs ds) td -> is_typedef td = false ->
    (forall y l, td = TdEnum y l -> enum_impl_std_trait cfg = false \/ dense ds l) ->
    from_bytes n E (TRef (camel x)) bs = Ok v ->
    exists xv, xtype ds dm (TsIdent x) xv /\ speaks E (TRef (camel x)) v xv.
  Proof.
    intros F N EN H. apply from_bytes_inv in H. destruct (proj1 (normal_main env_rev) _ _ _ H I) as (w & D & _).
    assert (K : exists k, tkind cfg ds (TsIdent x) k /\ attr_of k = ANone).
    { destruct td as [d|y l|y l|y u]; [discriminate| | |].
      - destruct (enum_impl_std_trait cfg) eqn:st.
        + exists KDense. split; [|easy]. eapply tk_dense; eauto. destruct (EN _ _ eq_refl); easy.
        + exists KPlain. split; [|easy]. eapply tk_enum; eauto.
      - exists KPlain. split; [|easy]. eapply tk_struct; eauto.
      - exists KPlain. split; [|easy]. eapply tk_union; eauto. }
    destruct K as (k & K & A). destruct (proj1 (tok_total cfg ds) _ _ K) as [ty TK].
    pose proof (item_named F N TK) as ->. destruct (find_item_of SD FF F N) as (i & _ & FI & _).
    assert (FS : field_sem f (attr_of k) (YName (camel x)) = Some (TRef (camel x))) by (rewrite A; cbn; now rewrite FI).
    destruct (proj1 (conv (S (xsize w))) _ _ K w _ _ v (Nat.lt_succ_diag_r _) TK FS D) as (xv & X & W).
    exists xv. split; [easy|]. now apply speaks_denotes with w.
  Qed.
End Conv.
