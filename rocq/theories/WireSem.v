(** The types of the generated structs and unions exist, and what they are. *)
From Verif Require Import Base RustTypes SpecXdr SpecTypes XdrFacts Nom NomFacts Ast ParserModel
  SpecGrammar SpecParse ConstProofs CaseModel SpecCase CaseProofs RustAst GenModel SpecGen GenFacts GenTotal
  GenPanic SpecItems GenLemmas SpecXdl GenSem WireBase WireEnum WireTok WireStruct WireUnion WireFile.
Set Implicit Arguments.
Unset Strict Implicit.
Local Open Scope list_scope.

Lemma rty_eqb_refl t : rty_eqb t t = true.
Proof.
  induction t as [s w| | | | |x|t IH len cast|t IH| |t IH|t IH|]; cbn; try easy.
  - now rewrite eqb_reflx, Z.eqb_refl.
  - apply String.eqb_refl.
  - rewrite IH, eqb_reflx. destruct len; cbn; [apply Z.eqb_refl|apply String.eqb_refl].
Qed.

Lemma uint_enum ds t : is_uint ds t -> forall x y l, t = TsIdent x -> first x (type_defs ds) (TdEnum y l) -> False.
Proof. intros [|x t' y F U] x' y' l E F'; [discriminate|]. injection E as <-. discriminate (first_fun F F'). Qed.

Lemma uint_tok ds t ty op : is_uint ds t -> tok ds t ty op -> ty = YInt false W32.
Proof.
  intros U. revert ty op. induction U as [|x t y F U IH]; intros ty op T.
  - now inversion T.
  - inversion T as [| | | | | | |? t' F1 N|? d ? ? F1 D]; subst.
    + rewrite <- (first_fun F F1) in N. discriminate.
    + pose proof (first_fun F F1) as E. injection E as <-. inversion D; subst. eauto.
Qed.

Section Sem.
  Variables (cfg : config) (ds : list definition).
  Hypothesis SD : supported_defs cfg ds.
  Variable f : file.
  Hypothesis FF : file_facts cfg ds f.
  Let G := sd_good SD.
  Let NT := sd_types SD.
  Let cx := ctx cfg ds.

  Lemma struct_means x l s : struct_facts cfg ds x l s -> exists ts, struct_sem f s = Some (TStruct ts) /\
    Forall2 (fun fd q => field_sem f (fd_attr fd) (fd_ty fd) = Some (snd q)) (st_fields s) ts.
  Proof.
    intros F. unfold struct_sem.
    assert (W : exists ts, omap (fun fd => option_map (Datatypes.pair (rident_name (fd_name fd))) (field_sem f (fd_attr fd) (fd_ty fd))) (st_fields s) = Some ts).
    { apply omap_total. intros fd H. destruct (Forall2_in_r F H) as (d & _ & k & nm & ty & D & _ & _ & T & _ & Ea & Et).
      destruct (dkind_field SD FF D T) as [T' FT]. rewrite Ea. destruct Et as [[_ ->]|(-> & _ & ->)].
      - rewrite FT. cbn. eauto.
      - cbn in *. rewrite FT. cbn. eauto. }
    destruct W as [ts W]. rewrite W. exists ts. split; [easy|]. apply omap_some in W. eapply Forall2_impl_in; [exact W|].
    intros fd q _ _ H. cbn in H. destruct (field_sem f (fd_attr fd) (fd_ty fd)); [|discriminate]. injection H as <-. easy.
  Qed.

  (** arms without attribute *)
  Definition arm_types (d : decl) (Ts : list ty) : Prop :=
    d = DVoid /\ Ts = [] \/
    exists k ty, dkind cfg ds d k /\ dtok ds d ty (op_of k) /\
      ((k = KPlain \/ k = KDense) /\ (exists T, ty_sem f ty = Some T /\ Ts = [T]) \/ k = KVar /\ Ts = [TVariableArray]).
  Definition arm_shape (d : decl) (s : vshape) : Prop :=
    d = DVoid /\ s = VUnit \/
    exists k ty T, dkind cfg ds d k /\ dtok ds d ty (op_of k) /\ field_sem f (attr_of k) ty = Some T /\ s = VNewtype T.

  Lemma arm_ty d k ty : dkind cfg ds d k -> dtok ds d ty (op_of k) -> k = KPlain \/ k = KDense ->
    exists T, ty_sem f ty = Some T.
  Proof. intros D T _. exact (dkind_ty SD FF D T). Qed.

  Lemma arm_plain d a tys : union_complement_index cfg = false -> arm_facts cfg ds d a tys ->
    a = ANone /\ length tys = length tys /\ exists Ts, omap (ty_sem f) tys = Some Ts /\ arm_types d Ts.
  Proof.
    intros ci. unfold arm_facts. rewrite ci. intros [(-> & -> & ->)|(k & ty & D & T & _ & -> & [[K ->]|[-> ->]])].
    - split; [easy|]. split; [easy|]. exists []. split; [easy|now left].
    - split; [easy|]. split; [easy|]. destruct (arm_ty D T K) as [T' E]. cbn. rewrite E. exists [T']. split; [easy|].
      right. exists k, ty. split; [easy|]. split; [easy|]. left. eauto.
    - split; [easy|]. split; [easy|]. exists [TVariableArray]. split; [easy|]. right. exists KVar, ty. split; [easy|]. split; [easy|]. now right.
  Qed.

  Lemma arm_serde d a tys : union_complement_index cfg = true -> arm_facts cfg ds d a tys ->
    tys = [] /\ a = ANone /\ d = DVoid \/ exists ty T, tys = [ty] /\ field_sem f a ty = Some T /\ arm_shape d (VNewtype T).
  Proof.
    intros ci. unfold arm_facts. rewrite ci. intros [(-> & -> & ->)|(k & ty & D & T & _ & -> & ->)].
    - now left.
    - destruct (dkind_field SD FF D T) as [T' E]. right. exists ty, T'. split; [easy|]. split; [easy|]. right. now exists k, ty, T'.
  Qed.

  Lemma member_value x y l a z : first x (type_defs ds) (TdEnum y l) -> In a l ->
    value_is ds (VIdent (as_name a)) z -> value_is ds (as_value a) z.
  Proof.
    intros F Ha V. apply first_in in F. pose proof (sd_scope SD) as N.
    assert (M : In (as_name a, as_value a) (member_defs ds)).
    { apply in_flat_map. exists (x, TdEnum y l). split; [easy|]. cbn. apply in_map_iff. now exists a. }
    assert (MF : forall v, first (as_name a) (member_defs ds) v -> v = as_value a).
    { intros v FV. apply first_in in FV. assert (ND : NoDup (map fst (member_defs ds))).
      { clear - N. induction (map fst (const_defs ds)) as [|b c IH]; [easy|]. inversion N; subst. now apply IH. }
      pose proof (assoc_in_nodup ND FV) as A1. pose proof (assoc_in_nodup ND M) as A2. congruence. }
    inversion V as [|? v ? FV VV|? v ? NI FV VV]; subst.
    - exfalso. apply first_in in FV. apply (in_map fst) in FV. apply (in_map fst) in M. cbn in *.
      clear - N FV M. induction (map fst (const_defs ds)) as [|b c IH]; [easy|]. cbn in N. inversion N as [|? ? N1 N2]; subst.
      destruct FV as [->|FV]; [|now apply IH]. apply N1. apply in_or_app. now right.
    - now rewrite <- (MF _ FV).
  Qed.

  Section Union.
    Variables (t : tyspec) (nm : string) (specs : list cspec) (dflt : option decl) (cty : rty).
    Variables (cs : list (ent * variant)) (vs dvs : list variant) (u : union_item).
    Hypothesis UF : union_facts cfg ds t specs dflt cty cs vs dvs u.
    Hypothesis DO : disc_ok cfg ds t (labels specs).

    Let other := match dflt with Some _ => DVal "Default"%string | None => DErr end.

    Lemma in_variants va : In va (un_variants u) ->
      (exists c, In c cs /\ va = snd c) \/ (union_complement_index cfg = true /\ exists z, va = resv z) \/ In va dvs.
    Proof.
      rewrite (uf_variants UF). destruct (uf_cases UF) as [p CF]. intros H. apply in_app_or in H as [H|H]; [|now right; right].
      destruct (union_complement_index cfg) eqn:ci.
      - destruct (cf_fill CF ci) as (_ & _ & F). apply In_nth_error in H as [i H]. destruct (F _ _ H) as [->|(c & Hc & -> & _)].
        + right. left. split; [easy|]. now eexists.
        + left. now exists c.
      - rewrite (cf_plain CF ci) in H. apply in_map_iff in H as (c & <- & Hc). left. now exists c.
    Qed.

    Lemma case_in c : In c cs -> In (snd c) (un_variants u) /\ ent_variant cfg ds cty c.
    Proof.
      intros H. rewrite (uf_variants UF). destruct (uf_cases UF) as [p CF]. pose proof (cf_variant CF) as V. rewrite Forall_forall in V.
      split; [|now apply V]. apply in_or_app. left. destruct (union_complement_index cfg) eqn:ci.
      - destruct (cf_fill CF ci) as (_ & F & _). apply nth_error_In with (1 := F _ H).
      - rewrite (cf_plain CF ci). now apply in_map.
    Qed.

    Lemma serde_means : union_complement_index cfg = true ->
      exists vss, union_sem f u = Some (TEnum vss) /\
        Forall2 (fun va q => serde_variant_sem f va = Some q) (un_variants u) vss.
    Proof.
      intros ci. assert (M : union_impl_indexer cfg = false /\ union_impl_union cfg = false).
      { unfold union_complement_index in ci. now destruct (union_impl_indexer cfg), (union_impl_union cfg). }
      destruct M as [M1 M2].
      assert (W : exists vss, omap (serde_variant_sem f) (un_variants u) = Some vss).
      { apply omap_total. intros va H. apply in_variants in H as [(c & Hc & ->)|[(_ & z & ->)|H]].
        - destruct (case_in Hc) as [_ (EN & tys & AF & ET)]. unfold serde_variant_sem. rewrite EN, ET. unfold disc_tys. rewrite M2. cbn [token_id obind app].
          destruct (arm_serde ci AF) as [(-> & -> & _)|(ty & T & -> & E & _)]; [eauto|]. rewrite E. cbn. eauto.
        - cbn. eauto.
        - pose proof (uf_default UF) as D. destruct dflt as [d|]; [|now rewrite D in H]. destruct D as (tys & -> & D). destruct H as [<-|[]].
          unfold serde_variant_sem, disc_tys. rewrite M2. cbn. destruct D as [[_ ->]|(k & ty & DK & T & -> & _)]; [eauto|].
          destruct (dkind_ty SD FF DK T) as [T' E]. cbn. rewrite E. cbn. eauto. }
      destruct W as [vss W]. exists vss. split; [|now apply omap_some in W].
      unfold union_sem. rewrite (uf_fits UF), (uf_derive UF), (uf_indexer UF), (uf_union UF), M1, M2. cbn. now rewrite W.
    Qed.

    Lemma omap_assoc vss : NoDup (map fst (vss : list (string * list ty))) -> forall c q, In c cs -> In q vss ->
      fst q = ename (fst c) -> assoc String.eqb (ename (fst c)) vss = Some (snd q).
    Proof. intros N c q _ H E. rewrite <- E. apply assoc_in_nodup; [easy|]. now destruct q. Qed.

    Lemma indexer_means : union_impl_indexer cfg = true ->
      exists vss, union_sem f u = Some (TIndexer vss (map (fun c => (ename (fst c), as_i32 (ez (fst c)))) cs)
                      (map (fun c => (as_i32 (ez (fst c)), ename (fst c))) cs) other) /\
        NoDup (map fst vss) /\ Forall2 (fun va q => indexer_variant_sem f va = Some q) (un_variants u) vss.
    Proof.
      intros M1. assert (M2 : union_impl_union cfg = false) by (destruct (sd_union_mode SD); congruence).
      assert (ci : union_complement_index cfg = false) by (unfold union_complement_index; now rewrite M1).
      assert (W : exists vss, omap (indexer_variant_sem f) (un_variants u) = Some vss).
      { apply omap_total. intros va H. apply in_variants in H as [(c & Hc & ->)|[(ci' & _)|H]]; [|congruence|].
        - destruct (case_in Hc) as [_ (EN & tys & AF & ET)]. unfold indexer_variant_sem. rewrite EN, ET. unfold disc_tys. rewrite M2. cbn [token_id obind app].
          destruct (arm_plain ci AF) as (-> & _ & Ts & E & _). rewrite E. cbn. eauto.
        - pose proof (uf_default UF) as D. destruct dflt as [d|]; [|now rewrite D in H]. destruct D as (tys & -> & D). destruct H as [<-|[]].
          unfold indexer_variant_sem, disc_tys. rewrite M2. cbn. destruct D as [[_ ->]|(k & ty & DK & T & -> & _)]; [cbn; eauto|].
          destruct (dkind_ty SD FF DK T) as [T' E]. cbn. rewrite E. cbn. eauto. }
      destruct W as [vss W]. exists vss.
      pose proof W as FV. apply omap_some in FV.
      assert (NV : NoDup (map fst vss) /\ map fst vss = map vname (un_variants u)).
      { assert (E : map fst vss = map vname (un_variants u) /\ variant_names (un_variants u) = map vname (un_variants u)).
        { clear - FV. induction FV as [|va q l m H F [IH1 IH2]]; [easy|]. cbn. unfold indexer_variant_sem in H. unfold vname at 1 3. cbn.
          destruct (va_name va) as [z|x]; [discriminate|]. cbn in H. destruct (va_attr va); try discriminate.
          destruct (omap (ty_sem f) (va_tys va)); [|discriminate]. injection H as <-. cbn. rewrite IH1. split; [easy|]. now rewrite <- IH2. }
        destruct E as [E1 E2]. split; [|easy]. rewrite E1, <- E2. apply (uf_compiles UF). }
      destruct NV as [NV EV].
      split; [|split; [easy|easy]].
      unfold union_sem. rewrite (uf_fits UF), (uf_derive UF), (uf_indexer UF), (uf_union UF), M1, M2. cbn [guard]. rewrite W. cbn [obind].
      unfold indexer_sem. cbn [ix_names ix_index ix_other ix_unimplemented].
      rewrite omap_mapped with (g := fun c => (as_i32 (ez (fst c)), ename (fst c))) by easy. cbn [obind].
      rewrite omap_mapped with (g := fun c => (ename (fst c), as_i32 (ez (fst c)))).
      2: { intros c Hc. cbn [cname token_id obind].
           destruct (case_in Hc) as [HI (EN & tys & AF & ET)].
           destruct (Forall2_in_l FV HI) as (q & Hq & E). unfold indexer_variant_sem in E. rewrite EN, ET in E. unfold disc_tys in E. rewrite M2 in E.
           destruct (arm_plain ci AF) as (Ea & _ & Ts & E' & AT). rewrite Ea in E. cbn [token_id obind app] in E. rewrite E' in E. injection E as E.
           rewrite (@omap_assoc vss NV c q Hc Hq) by now rewrite <- E. rewrite <- E. cbn [obind snd].
           assert (length Ts = length tys) by (apply omap_some in E'; symmetry; now apply Forall2_len in E').
           unfold has_paren. rewrite ET, M2. unfold disc_tys. rewrite M2. cbn [app]. rewrite H.
           unfold arm_facts in AF. rewrite ci in AF. destruct AF as [(_ & _ & ->)|(k & ty & _ & _ & _ & _ & [[_ ->]|[_ ->]])]; easy. }
      cbn [obind].
      assert (EO : match (match dflt with Some _ => Some default_id | None => None end) with
                   | Some v => option_map DVal (token_id v) | None => Some DErr end = Some other) by (unfold other; now destruct dflt).
      rewrite EO. cbn [obind]. destruct (uf_cases UF) as [p CF].
      assert (NE : cs <> []) by apply (cf_nonempty CF).
      replace (nonempty_list (map (fun c => (as_i32 (ez (fst c)), ename (fst c))) cs)) with true by now destruct cs.
      replace (nonempty_list (map (fun c => (ename (fst c), as_i32 (ez (fst c)))) cs)) with true by now destruct cs.
      cbn [andb].
      pose proof in_variants as IV. pose proof case_in as CI. pose proof (uf_default UF) as UD. pose proof (uf_names UF) as UN.
      destruct dflt as [d|] eqn:ed; [easy|]. cbn [orb].
      replace (forallb _ vss) with true; [easy|]. symmetry. apply forallb_forall. intros q Hq.
      destruct (Forall2_in_r FV Hq) as (va & Hva & E). apply IV in Hva as [(c & Hc & ->)|[(ci' & _)|H]]; [|congruence|].
      - destruct (CI c Hc) as [_ (EN & tys & AF & ET)]. unfold indexer_variant_sem in E. rewrite EN in E. cbn in E.
        assert (EQ : fst q = ename (fst c)).
        { destruct (va_attr (snd c)); try discriminate. destruct (omap (ty_sem f) (va_tys (snd c))); [|discriminate]. now injection E as <-. }
        rewrite EQ. rewrite assoc_in_nodup with (v := as_i32 (ez (fst c))); [easy| |].
        + rewrite map_map. cbn. rewrite <- (map_map fst ename). exact UN.
        + apply in_map_iff. now exists c.
      - cbn in UD. now rewrite UD in H.
    Qed.

    (** the member of an enum that a label names *)
    Lemma enum_label e y l en : first e (type_defs ds) (TdEnum y l) ->
      (forall v, In v (labels specs) -> exists a, In a l /\ v = VIdent (as_name a)) ->
      t = TsIdent e -> label_entry ds specs en ->
      exists a, In a l /\ ev en = VIdent (as_name a) /\ value_is ds (as_value a) (ez en).
    Proof.
      intros F H ET L. pose proof (label_entry_in L) as I. destruct (H _ I) as (a & Ha & E). exists a. split; [easy|]. split; [easy|].
      destruct L as (ls & _ & _ & V). unfold disc_ok in DO. rewrite ET in DO. destruct DO as (_ & D & _).
      destruct (D _ I) as (x & z & E' & N1 & N2 & V' & _).
      destruct V as [[V _]|[[V _]|(_ & _ & V)]]; [congruence|congruence|]. rewrite E in V.
      eapply member_value; eauto.
    Qed.

    Lemma pat_means c : union_impl_union cfg = true -> In c cs -> exists v, pat_sem f cty (pat_of cfg ds t (fst c)) = Some v.
    Proof.
      intros M Hc. destruct (uf_cases UF) as [p CF]. destruct (cf_tok CF) as (k & K & T). destruct (cf_cases CF Hc) as [L _].
      destruct (TsBool_dec t) as [E|NB].
      - rewrite E in *. inversion T; subst. cbn. eauto.
      - assert (D : is_uint ds t \/ exists e y l, t = TsIdent e /\ first e (type_defs ds) (TdEnum y l) /\
           forall v, In v (labels specs) -> exists a, In a l /\ v = VIdent (as_name a)).
        { unfold disc_ok in DO. rewrite M in DO. destruct t; try easy; destruct DO as (_ & _ & _ & [U|(e & y & l & E & F & _ & H)]); (now left) || (right; eauto 7). }
        destruct D as [U|(e & y & l & E & F & H)].
        + rewrite (uint_tok U T). unfold pat_of. pose proof (uint_enum U) as UE. destruct U as [|x t' y F U]; [cbn; eauto|].
          destruct (is_enum_type cx (TsIdent x)) eqn:ie.
          * apply (enum_type_spec cfg G NT) in ie as (x' & y' & l & [= <-] & F'). discriminate (first_fun F F').
          * fold cx. rewrite ie. cbn. eauto.
        + destruct (enum_label F H E L) as (a & Ha & Ev & V). unfold pat_of. rewrite E in *. fold cx. replace (is_enum_type cx (TsIdent e)) with true.
          2: { symmetry. apply (enum_type_spec cfg G NT). eauto. }
          inversion T as [| | | | | | |? td F1 N1|? d ? ? F1 D1]; subst; [|discriminate (first_fun F F1)].
          cbn [pat_sem]. rewrite String.eqb_refl. cbn [guard].
          destruct (find_enum_facts SD FF F eq_refl) as (i & FI & en & -> & _ & Te & _ & _ & EF).
          unfold find_enum. rewrite FI. cbn [obind].
          destruct (EF [] a _ Ha V) as (i & P & _). unfold ename. rewrite Ev, P. cbn. eauto.
    Qed.

    Lemma union_means : union_impl_union cfg = true ->
      exists vss dt names, union_sem f u = Some (TUnion vss dt names (match t with TsBool => DErr | _ => other end)) /\
        ty_sem f cty = Some dt /\ NoDup (map fst vss) /\
        Forall2 (fun va q => union_variant_sem f cty va = Some q) (un_variants u) vss /\
        Forall2 (fun c q => pat_sem f cty (pat_of cfg ds t (fst c)) = Some (fst q) /\ snd q = ename (fst c)) cs names.
    Proof.
      intros M2. assert (M1 : union_impl_indexer cfg = false) by (destruct (sd_union_mode SD); congruence).
      assert (ci : union_complement_index cfg = false) by (unfold union_complement_index; now rewrite M2, andb_comm).
      destruct (uf_cases UF) as [p CF]. destruct (cf_tok CF) as (k & K & T).
      destruct (tkind_field SD FF K T) as [T' FT]. apply field_ty in FT as [dt DT].
      assert (W : exists vss, omap (union_variant_sem f cty) (un_variants u) = Some vss).
      { apply omap_total. intros va H. apply in_variants in H as [(c & Hc & ->)|[(ci' & _)|H]]; [|congruence|].
        - destruct (case_in Hc) as [_ (EN & tys & AF & ET)]. unfold union_variant_sem. rewrite EN, ET. unfold disc_tys. rewrite M2. cbn [token_id obind app].
          destruct (arm_plain ci AF) as (-> & _ & Ts & E & _). rewrite rty_eqb_refl, E. cbn. eauto.
        - pose proof (uf_default UF) as D. destruct dflt as [d|]; [|now rewrite D in H]. destruct D as (tys & -> & D). destruct H as [<-|[]].
          unfold union_variant_sem, disc_tys. rewrite M2. cbn. rewrite rty_eqb_refl. destruct D as [[_ ->]|(k' & ty & DK & TT & -> & _)]; [cbn; eauto|].
          destruct (dkind_ty SD FF DK TT) as [T'' E]. cbn. rewrite E. cbn. eauto. }
      destruct W as [vss W].
      assert (WN : exists names, omap (fun q => obind (pat_sem f cty (fst q)) (fun v => option_map (Datatypes.pair v) (token_id (snd q))))
                      (map (fun c => (pat_of cfg ds t (fst c), cname c)) cs) = Some names).
      { apply omap_total. intros q Hq. apply in_map_iff in Hq as (c & <- & Hc). destruct (pat_means M2 Hc) as [v E]. cbn [fst snd]. rewrite E. cbn. eauto. }
      destruct WN as [names WN]. exists vss, dt, names.
      pose proof W as FV. apply omap_some in FV.
      split; [|split; [easy|split; [|split; [easy|]]]].
      - unfold union_sem. rewrite (uf_fits UF), (uf_derive UF), (uf_indexer UF), (uf_union UF), M1, M2. cbn [guard].
        unfold union_impl_sem. cbn [ui_disc obind ui_names ui_other]. rewrite DT. cbn [obind]. rewrite W. cbn [obind]. rewrite WN. cbn [obind].
        assert (NE : nonempty_list names = true).
        { pose proof (cf_nonempty CF). apply omap_some in WN. apply Forall2_len in WN. rewrite map_length in WN. destruct names; [|easy]. destruct cs; easy. }
        destruct (TsBool_dec t) as [E|NB].
        + assert (B : existsb (is_pt true) (map (fun c => (pat_of cfg ds t (fst c), cname c)) cs) = true /\
                      existsb (is_pt false) (map (fun c => (pat_of cfg ds t (fst c), cname c)) cs) = true).
          { rewrite E in DO. destruct DO as (_ & _ & BO). destruct (BO M2) as [BF BT].
            assert (LB : forall (b : bool) v, v = VIdent (if b then "TRUE" else "FALSE") -> In v (labels specs) ->
              existsb (is_pt b) (map (fun c => (pat_of cfg ds t (fst c), cname c)) cs) = true).
            { intros b v Ev Hv. unfold labels in Hv. apply in_flat_map in Hv as ([ls d] & Hs & Hv).
              destruct (@cf_entry _ _ _ _ _ _ _ _ CF d ls v (if b then 1 else 0) Hs Hv) as [va Hva].
              { rewrite Ev. destruct b; [right; now left|now left]. }
              apply existsb_exists. eexists. split; [apply in_map; exact Hva|]. rewrite E. cbn. now destruct b. }
            split; [now apply (LB true) with (VIdent "TRUE")|now apply (LB false) with (VIdent "FALSE")]. }
          destruct B as [B1 B2]. rewrite B1, B2. rewrite E. cbn. now rewrite NE.
        + assert (TT : forall {A} (a b : A), match t with TsBool => a | _ => b end = b) by (intros; now destruct t).
          rewrite !TT. unfold other. destruct dflt; cbn; now rewrite NE.
      - assert (E : map fst vss = map vname (un_variants u) /\ variant_names (un_variants u) = map vname (un_variants u)).
        { clear - FV. induction FV as [|va q l m H F [IH1 IH2]]; [easy|]. cbn. unfold union_variant_sem in H. unfold vname at 1 3. cbn.
          destruct (va_name va) as [z|x]; [discriminate|]. cbn in H. destruct (va_attr va); try discriminate. destruct (va_tys va) as [|ty tys]; [discriminate|].
          destruct (rty_eqb ty cty); [|discriminate]. cbn in H.
          destruct (omap (ty_sem f) tys); [|discriminate]. injection H as <-. cbn. rewrite IH1. split; [easy|]. now rewrite <- IH2. }
        destruct E as [E1 E2]. rewrite E1, <- E2. apply (uf_compiles UF).
      - clear - WN. apply omap_some in WN. revert WN. generalize names as ns. induction cs as [|c l IH]; intros ns H; inversion H as [|? q ? ns' h H']; subst; constructor.
        + cbn in h. destruct (pat_sem f cty (pat_of cfg ds t (fst c))); [|discriminate]. injection h as <-. easy.
        + now apply IH.
    Qed.
  End Union.

  (** every item has a type *)
  Lemma item_means d i : In d (item_defs true ds) -> item_facts cfg ds d i -> exists T, item_sem f i = Some T.
  Proof.
    intros H (_ & _ & F). apply filter_In in H as [H _]. destruct d as [x t]. cbn [fst snd] in F. pose proof (sd_items SD H) as O.
    destruct t as [d|y l|y l|y [c specs dflt]]; [easy| | |].
    - destruct F as (e & -> & _ & T & E & _). now exists T.
    - destruct F as (s & -> & F). destruct (struct_means F) as (ts & E & _). cbn. eauto.
    - destruct F as (u & -> & t & nm & cty & cs & vs & dvs & -> & F). destruct O as (_ & (t' & y' & [= <- <-] & D) & _).
      cbn [item_sem].
      destruct (union_impl_indexer cfg) eqn:M1; [destruct (indexer_means F M1) as (vss & E & _); eauto|].
      destruct (union_impl_union cfg) eqn:M2; [destruct (union_means F D M2) as (vss & dt & names & E & _); eauto|].
      destruct (serde_means F) as (vss & E & _); [unfold union_complement_index; now rewrite M1, M2|]. eauto.
  Qed.

  Lemma env_means : exists E, file_env f = Some E.
  Proof.
    unfold file_env. apply omap_total. intros i H. destruct FF as [F _]. destruct (Forall2_in_r F H) as (d & Hd & FI).
    destruct (item_means Hd FI) as [T E]. rewrite E. cbn. eauto.
  Qed.

  Lemma env_lookup E n i : file_env f = Some E -> find_item f n = Some i -> exists T, item_sem f i = Some T /\ lookup E n = Some T.
  Proof.
    unfold file_env, find_item, lookup. intros H. apply omap_some in H. revert H. generalize (fi_types f) as l. intros l H.
    induction H as [|j q l E h H IH]; cbn; [discriminate|].
    destruct (item_sem f j) as [T|] eqn:e; [|discriminate]. injection h as <-. cbn. rewrite (String.eqb_sym n).
    destruct (String.eqb (GenSem.item_name j) n); [|exact IH]. intros [= <-]. now exists T.
  Qed.

  (** ** Names and sizes *)
  Lemma inline_holds :
    (forall t ty op, tok ds t ty op -> forall y, In y (inline ty) -> exists z, holds ds t z /\ y = camel z) /\
    (forall d ty op, dtok ds d ty op -> forall y, In y (inline ty) -> exists z, dholds ds d z /\ y = camel z).
  Proof.
    apply tok_dtok_ind; try easy.
    - intros x t F N y [<-|[]]. exists x. split; [now apply ho_item with t|easy].
    - intros x d ty op F _ IH y Hy. destruct (IH y Hy) as (z & H & E). exists z. split; [now apply ho_typedef with d|easy].
    - intros t x ty op _ IH y Hy. destruct (IH y Hy) as (z & H & E). exists z. split; [now constructor|easy].
    - intros t x v len ty op _ IH _ y Hy. destruct (IH y Hy) as (z & H & E). exists z. split; [now constructor|easy].
    - intros t x ty op _ IH y Hy. destruct (IH y Hy) as (z & H & E). exists z. split; [now constructor|easy].
  Qed.

  Lemma item_names : map GenSem.item_name (fi_types f) = map camel (map fst (item_defs true ds)).
  Proof.
    destruct FF as [F _]. rewrite map_map. symmetry. apply Forall2_map_eq. eapply Forall2_impl_in; [exact F|].
    intros d i _ _ [H _]. now rewrite H.
  Qed.

  Lemma held_item :
    (forall t z, holds ds t z -> exists td, first z (type_defs ds) td /\ is_typedef td = false) /\
    (forall d z, dholds ds d z -> exists td, first z (type_defs ds) td /\ is_typedef td = false).
  Proof. apply holds_dholds_ind; eauto. Qed.

  Lemma file_compiles : compiles f.
  Proof.
    destruct FF as [F FCs]. split; [|split; [|split; [|split; [|split]]]].
    - rewrite item_names. apply camel_nodup. apply (sd_names SD).
    - apply Forall_forall. intros i H. destruct (Forall2_in_r F H) as ([x t] & Hd & En & _). rewrite En. cbn [fst].
      apply filter_In in Hd as [Hd T]. cbn in T. apply negb_true_iff in T. destruct (IN SD Hd T) as (c & _ & K).
      assert (K' : forall y, In y taken -> camel x <> y) by (intros y Hy E; apply (K y Hy); now apply camel_of_iff).
      split; [|intros C; now apply (K' _ C)]. apply camel_word; [easy|]. apply K'. now left.
    - apply Forall_forall. intros i H. destruct (Forall2_in_r F H) as (d & _ & _ & C & _). exact C.
    - destruct (sd_sized SD) as [rank SZ].
      exists (fun n => match find (fun d => String.eqb (camel (fst d)) n) (item_defs true ds) with Some d => rank (fst d) | None => 0%nat end).
      assert (R : forall x t, In (x, t) (type_defs ds) -> is_typedef t = false ->
        match find (fun d => String.eqb (camel (fst d)) (camel x)) (item_defs true ds) with Some d => rank (fst d) | None => 0%nat end = rank x).
      { intros x t H T. assert (I : In (x, t) (item_defs true ds)) by (apply filter_In; cbn; now rewrite T).
        destruct (find _ (item_defs true ds)) as [[x' t']|] eqn:e.
        - apply find_some in e as [I' E]. cbn in E. apply String.eqb_eq in E. cbn. f_equal.
          apply (camel_inj (proj1 (sd_names SD))); [now apply (in_map fst) in I'|now apply (in_map fst) in I|easy].
        - exfalso. apply find_none with (x := (x, t)) in e; [|easy]. cbn in e. now rewrite String.eqb_refl in e. }
      intros i y Hi Hy. destruct (Forall2_in_r F Hi) as ([x t] & Hd & En & _ & FI). rewrite En. cbn [fst snd] in *.
      apply filter_In in Hd as [Hd T]. cbn in T. apply negb_true_iff in T. rewrite (R x t Hd T). specialize (SZ x t Hd).
      destruct t as [d|y' l|y' l|y' [c specs dflt]]; [easy| | |].
      + destruct FI as (e & -> & _). easy.
      + destruct FI as (s & -> & SF). cbn [item_inline] in Hy. apply in_flat_map in Hy as (fd & Hfd & Hy).
        destruct (Forall2_in_r SF Hfd) as (d & Hdl & k & nm & ty & _ & _ & _ & TK & _ & _ & ET).
        destruct ET as [[NS ET]|(ET & _)]; rewrite ET in Hy; [|easy].
        destruct (proj2 inline_holds _ _ _ TK _ Hy) as (z & HZ & ->). destruct (proj2 held_item _ _ HZ) as (td & FZ & TZ).
        rewrite (R z td (first_in FZ) TZ). destruct (SZ d z Hdl HZ) as [M|M]; [|easy]. exfalso.
        assert (decl_type d = Some (TsIdent x)) by (destruct d; cbn in *; congruence). rewrite H in NS. cbn in NS.
        now rewrite String.eqb_refl in NS.
      + destruct FI as (u & -> & t & nm & cty & cs & vs & dvs & -> & UF). cbn [item_inline] in Hy. apply in_flat_map in Hy as (va & Hva & Hy).
        assert (A : exists d, (d = DVariable t nm \/ Some d = dflt \/ (exists vs, In (CaseSpec vs d) specs)) /\
          exists ty op, dtok ds d ty op /\ In y (inline ty)).
        { apply in_flat_map in Hy as (ty & Hty & Hy). destruct (uf_cases UF) as [p CF].
          assert (DT : In ty (disc_tys cfg cty) -> exists d, (d = DVariable t nm \/ Some d = dflt \/ (exists vs, In (CaseSpec vs d) specs)) /\
            exists ty op, dtok ds d ty op /\ In y (inline ty)).
          { unfold disc_tys. destruct (union_impl_union cfg); [|easy]. intros [<-|[]]. exists (DVariable t nm). split; [now left|].
            destruct (cf_tok CF) as (k & _ & TK). exists cty, (op_of k). split; [now constructor|easy]. }
          apply (in_variants UF) in Hva as [(c & Hc & ->)|[(_ & z & ->)|Hva]].
          - destruct (case_in UF Hc) as [_ (_ & tys & AF & ET)]. rewrite ET in Hty. apply in_app_or in Hty as [Hty|Hty]; [auto|].
            exists (ed (fst c)). destruct (cf_cases CF Hc) as [(ls & Hs & _) _]. split; [eauto|].
            destruct AF as [(_ & _ & ->)|(k & ty' & _ & TK & _ & AF)]; [easy|]. exists ty', (op_of k). split; [easy|].
            destruct (union_complement_index cfg); [destruct AF as [_ ->]|destruct AF as [_ [[_ ->]|[_ ->]]]]; destruct Hty as [<-|[]]; easy.
          - easy.
          - pose proof (uf_default UF) as D. destruct dflt as [d|]; [|now rewrite D in Hva]. destruct D as (tys & -> & D). destruct Hva as [<-|[]].
            cbn [va_tys] in Hty. apply in_app_or in Hty as [Hty|Hty]; [auto|]. exists d. split; [auto|].
            destruct D as [[_ ->]|(k & ty' & _ & TK & -> & _)]; [easy|]. destruct Hty as [<-|[]]. eauto. }
        destruct A as (d & Hd' & ty & op & TK & Hy'). destruct (proj2 inline_holds _ _ _ TK _ Hy') as (z & HZ & ->).
        destruct (proj2 held_item _ _ HZ) as (td & FZ & TZ). rewrite (R z td (first_in FZ) TZ). exact (SZ d z Hd' HZ).
    - assert (E : map co_name (fi_consts f) = map fst (const_defs ds)).
      { symmetry. apply Forall2_map_eq. eapply Forall2_impl_in; [exact FCs|]. intros d c _ _ [H _]. now rewrite H. }
      rewrite E. pose proof (sd_scope SD) as N. clear - N. induction (map fst (const_defs ds)) as [|b c IH]; [constructor|].
      inversion N as [|? ? N1 N2]; subst. constructor; [|now apply IH]. intros H. apply N1. apply in_or_app. now left.
    - apply Forall_forall. intros c H. destruct (Forall2_in_r FCs H) as ([x v] & Hd & En & _). cbn [fst] in En. unfold const_compiles. rewrite En.
      pose proof (sd_consts SD) as SC. rewrite Forall_forall in SC. destruct (SC _ Hd) as [NO VO]. split; [exact NO|].
      assert (V : exists z, value_is ds v z).
      { cbn [snd] in VO. destruct v; [destruct VO as (z & SF & _); exists z; now constructor|]. destruct VO as (_ & z & V & _). eauto. }
      destruct V as [z V].
      assert (FX : first x (const_defs ds) v).
      { apply assoc_first. apply assoc_in_nodup; [|easy]. pose proof (sd_scope SD) as N. clear - N.
        induction (map fst (const_defs ds)) as [|b c IH]; [constructor|].
        inversion N as [|? ? N1 N2]; subst. constructor; [|now apply IH]. intros H. apply N1. apply in_or_app. now left. }
      destruct (const_means SD FF (x := x) (z := z)) as [w E]; [now apply (in_map fst) in Hd|now apply vi_const with v|eauto].
  Qed.
End Sem.
