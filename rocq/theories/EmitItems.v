(** Imports and defaults of the generated code. *)
From Coq Require Import Permutation.
From Verif Require Import Base RustTypes Nom NomFacts Keyword Ast ParserModel SpecGrammar SpecParse ParseSound ParserLemmas
  ConstProofs CaseModel SpecCase CaseProofs RustAst GenModel SpecGen SpecItems GenFacts GenTotal GenPanic GenLemmas
  SpecXdl GenSem SpecWire WireBase WireEnum WireBack WireEnums SpecEmit EmitBase EmitProofs EmitFlags.
Set Implicit Arguments.
Unset Strict Implicit.
Local Open Scope list_scope.

(** ** Imports *)
Lemma enum_kind cx n x l e : convert_enum_token cx n x l = GOk e ->
  en_derive e = (if enum_impl_indexer (cx_config cx) then DvIndexer else DvSerde) /\
  (en_indexer e <> None <-> enum_impl_indexer (cx_config cx) = true).
Proof.
  intros H. unfold convert_enum_token in H. apply gbind_ok in H as (ix & _ & H). cbv zeta in H.
  apply gbind_ok in H as (nm & _ & H). apply gbind_ok in H as (vs & _ & H). apply gbind_ok in H as (items & _ & H).
  destruct items as [|[d z] rest]; [discriminate|]. injection H as <-. cbn [en_derive en_indexer].
  destruct (enum_impl_indexer (cx_config cx)); easy.
Qed.
Lemma union_kind cx n x u i : convert_union_token cx n x u = GOk i ->
  un_derive i = (if union_impl_indexer (cx_config cx) then DvIndexer else if union_impl_union (cx_config cx) then DvUnion else DvSerde) /\
  (un_indexer i <> None <-> union_impl_indexer (cx_config cx) = true) /\ (un_union i <> None <-> union_impl_union (cx_config cx) = true).
Proof.
  intros H. destruct u as [c specs dflt]. unfold convert_union_token in H. apply gbind_ok in H as (nm & _ & H).
  apply gbind_ok in H as (t & _ & H). apply gbind_ok in H as (p & _ & H). apply gbind_ok in H as (q & _ & H). cbv zeta in H.
  destruct (up_default q); [|discriminate]. injection H as <-. cbn [un_derive un_indexer un_union].
  destruct (union_impl_indexer (cx_config cx)), (union_impl_union (cx_config cx)); easy.
Qed.
Lemma gen_uses cfg ds n f : gen_code n cfg ds = GOk f ->
  (In UseSerializeTuple (fi_uses f) <-> enum_impl_indexer cfg || union_impl_indexer cfg || union_impl_union cfg = true) /\
  (In UseIndexer (fi_uses f) <-> enum_impl_indexer cfg || union_impl_indexer cfg = true) /\
  (In UseUnion (fi_uses f) <-> union_impl_union cfg = true).
Proof.
  rewrite gen_code_eq. intros H. apply gbind_ok in H as (cs & _ & H). apply gbind_ok in H as (ts & _ & H). injection H as <-. cbn [fi_uses].
  destruct (enum_impl_indexer cfg), (union_impl_indexer cfg), (union_impl_union cfg); cbn; intuition discriminate.
Qed.
Lemma enum_item_from cfg ds f n e : gen_code n cfg ds = GOk f -> In e (enums f) ->
  exists x y l, In (x, TdEnum y l) (type_defs ds) /\ convert_enum_token (ctx cfg ds) n x l = GOk e.
Proof.
  intros H I. apply in_flat_map in I as (i & Hi & I). destruct i as [|e'| |]; cbn in I; try easy. destruct I as [<-|[]].
  destruct (item_back H Hi) as ([x [d|y l|y l|y u]] & its & Hd & T & HI); cbn [type_token_of] in T.
  - destruct (remove_typedef _); [injection T as <-; easy|]. apply gbind_ok in T as (o & _ & T). apply gbind_ok in T as ([ty op] & _ & T).
    destruct op; [|discriminate..]. apply gbind_ok in T as (z & _ & [= <-]). now destruct HI as [HI|[]].
  - apply gbind_ok in T as (e'' & T & [= <-]). destruct HI as [HI|[]]. injection HI as ->. eauto.
  - apply gbind_ok in T as (s & _ & [= <-]). now destruct HI as [HI|[]].
  - apply gbind_ok in T as (s & _ & [= <-]). now destruct HI as [HI|[]].
Qed.
Lemma union_item_from cfg ds f n u : gen_code n cfg ds = GOk f -> In u (unions f) ->
  exists x y b, In (x, TdUnion y b) (type_defs ds) /\ convert_union_token (ctx cfg ds) n x b = GOk u.
Proof.
  intros H I. apply in_flat_map in I as (i & Hi & I). destruct i as [| | |u']; cbn in I; try easy. destruct I as [<-|[]].
  destruct (item_back H Hi) as ([x [d|y l|y l|y b]] & its & Hd & T & HI); cbn [type_token_of] in T.
  - destruct (remove_typedef _); [injection T as <-; easy|]. apply gbind_ok in T as (o & _ & T). apply gbind_ok in T as ([ty op] & _ & T).
    destruct op; [|discriminate..]. apply gbind_ok in T as (z & _ & [= <-]). now destruct HI as [HI|[]].
  - apply gbind_ok in T as (s & _ & [= <-]). now destruct HI as [HI|[]].
  - apply gbind_ok in T as (s & _ & [= <-]). now destruct HI as [HI|[]].
  - apply gbind_ok in T as (s & T & [= <-]). destruct HI as [HI|[]]. injection HI as ->. eauto.
Qed.

Lemma imports fl checks src f : greturns (fun n => rpcgen n fl checks src) (GOk f) ->
  (forall e, In e (enums f) ->
     (en_derive e = DvIndexer <-> en_indexer e <> None) /\ en_derive e <> DvUnion /\
     (en_indexer e <> None -> In UseIndexer (fi_uses f) /\ In UseSerializeTuple (fi_uses f))) /\
  (forall u, In u (unions f) ->
     (un_derive u = DvIndexer <-> un_indexer u <> None) /\ (un_derive u = DvUnion <-> un_union u <> None) /\
     (un_indexer u <> None -> In UseIndexer (fi_uses f) /\ In UseSerializeTuple (fi_uses f)) /\
     (un_union u <> None -> In UseUnion (fi_uses f) /\ In UseSerializeTuple (fi_uses f))).
Proof.
  intros R. apply rpcgen_runs in R as (n & ds & R). destruct (R n (le_n n)) as [_ G]. clear R.
  destruct (gen_uses G) as (U1 & U2 & U3). set (cfg := main_config fl checks) in *. split.
  - intros e He. destruct (enum_item_from G He) as (x & y & l & _ & C). apply enum_kind in C as [D I]. cbn [ctx cx_config] in D, I.
    rewrite U1, U2, I, D. destruct (enum_impl_indexer cfg); intuition (try discriminate; try easy).
  - intros u Hu. destruct (union_item_from G Hu) as (x & y & b & _ & C). apply union_kind in C as (D & I & J). cbn [ctx cx_config] in D, I, J.
    rewrite U1, U2, U3, I, J, D. assert (M : union_impl_indexer cfg = true -> union_impl_union cfg = false).
    { unfold cfg. cbn. now destruct (use_union fl). }
    clear - M. revert M. destruct (union_impl_indexer cfg), (union_impl_union cfg), (enum_impl_indexer cfg); intuition (try discriminate; try easy).
Qed.

(** ** Defaults *)
Lemma enum_default cfg ds f e : good_spec ds -> one_scope ds -> greturns (fun n => gen_code n cfg ds) (GOk f) -> In e (enums f) ->
  exists x y l a z, In (x, TdEnum y l) (type_defs ds) /\ camel_of x (en_name e) /\ In a l /\ camel_of (as_name a) (en_default e) /\
    value_is ds (as_value a) z /\ forall b w, In b l -> value_is ds (as_value b) w -> z <= w.
Proof.
  intros G OS H He. apply greturns_run in H as (n & H & _). destruct (enum_item_from H He) as (x & y & l & I & C).
  destruct (good_types G I) as ((gy & ne & gl) & E0). injection E0 as ->. pose proof (enum_back G OS gl C) as (ix & F & M). cbv zeta in M.
  destruct M as (EN & _ & _ & _ & _ & (p & rest & ES & ED) & _).
  assert (P : Permutation (sort_by fst ix) ix) by apply sort_by_perm.
  assert (Hp : In p ix) by (apply (Permutation_in _ P); rewrite ES; now left).
  destruct (Forall2_in_r F Hp) as (a & Ha & E1 & V & _).
  exists x, x, l, a, (fst p). split; [easy|]. split; [rewrite EN; apply camel_of_camel|]. split; [easy|].
  split; [rewrite ED, E1; apply camel_of_camel|]. split; [easy|]. intros b w Hb W. destruct (Forall2_in_l F Hb) as (q & Hq & _ & V' & _).
  rewrite (value_is_fun W V'). pose proof (sort_by_asc fst ix) as A. rewrite ES in A.
  assert (Hq' : In q (p :: rest)) by (rewrite <- ES; apply (Permutation_in _ (Permutation_sym P)); easy).
  destruct Hq' as [<-|Hq']; [lia|]. inversion A; subst; auto.
Qed.

Lemma case_shape cx n v d c ct : convert_case_token cx n v d c = GOk ct ->
  va_name (ct_variant ct) = ct_name ct /\ length (va_tys (ct_variant ct)) = ct_args ct /\
  (forall x, v = VIdent x -> ct_name ct = TokId (camel x)).
Proof.
  intros H. unfold convert_case_token in H. apply gbind_ok in H as (nm & HN & H). apply gbind_ok in H as (ty & _ & H).
  apply gbind_ok in H as (o & _ & H). injection H as <-.
  split; [destruct o as [[t op]|]; destruct (union_impl_union (cx_config cx)); easy|].
  split; [destruct o as [[t op]|]; destruct (union_impl_union (cx_config cx)); easy|].
  intros x ->. cbn in HN. apply gbind_ok in HN as (y & HY & HN). apply camel_back in HY as [-> _]. injection HN as <-.
  destruct o as [[t op]|]; destruct (union_impl_union (cx_config cx)); easy.
Qed.

Lemma values_default cx n c : forall l s acc p, union_values cx n c s l acc = GOk p ->
  (forall va, In va (up_specs acc) -> In va (up_specs p)) /\
  (l <> [] -> up_cond p <> None) /\ (up_cond acc <> None -> up_cond p <> None) /\
  match up_default acc with
  | Some dv => up_default p = Some dv
  | None => match l with
            | [] => up_default p = None
            | (_, d, v) :: _ => exists ct, convert_case_token cx n v d c = GOk ct /\ In (ct_variant ct) (up_specs p) /\
                up_default p = Some (ct_name ct, ct_args ct)
            end
  end.
Proof.
  induction l as [|[[e d] v] l IH]; intros s acc p H; cbn [union_values] in H.
  - injection H as <-. repeat split; try easy. now destruct (up_default acc).
  - apply gbind_ok in H as (fill & _ & H). apply gbind_ok in H as (ct & HC & H). apply gbind_ok in H as (bv & _ & H).
    apply gbind_ok in H as (s' & _ & H). apply IH in H as (I & _ & K & D). cbn [up_specs up_cond up_default] in *.
    split; [intros va Hva; apply I; apply in_or_app; now left|]. split; [intros _; now apply K|]. split; [intros _; now apply K|].
    destruct (up_default acc) as [dv|]; cbn [opt_first] in D; [exact D|].
    exists ct. split; [easy|]. split; [|exact D]. apply I. apply in_or_app. right. apply in_or_app. right. now left.
Qed.

Definition bool_name (b : bool) : string := (if b then "TRUE" else "FALSE")%string.
Lemma test_name (b : bool) v : (if b then is_true else is_false) v = true <-> v = VIdent (bool_name b).
Proof.
  unfold is_true, is_false, bool_name. destruct v as [c|x], b; cbn; try (split; discriminate);
    rewrite String.eqb_eq; split; [now intros ->|now intros [= ->]|now intros ->|now intros [= ->]].
Qed.

Lemma bool_default cx n c b specs acc p : bool_case cx n c b specs acc = GOk p ->
  (forall va, In va (up_specs acc) -> In va (up_specs p)) /\
  exists o, up_default p = opt_first (up_default acc) o /\ (o <> None <-> In (VIdent (bool_name b)) (labels specs)) /\
    forall dv, o = Some dv -> fst dv = TokId (bool_name b) /\ names_variant (up_specs p) dv.
Proof.
  unfold bool_case. cbv zeta.
  destruct (find _ specs) as [[vs d]|] eqn:FS.
  - apply find_some in FS as [HS EX]. cbn in EX. destruct (find _ vs) as [v|] eqn:FV; [|discriminate].
    apply find_some in FV as [HV TV]. apply test_name in TV as ->.
    intros H. apply gbind_ok in H as (ct & HC & H). injection H as <-. cbn [up_specs up_default].
    split; [intros va Hva; apply in_or_app; now left|]. exists (Some (ct_name ct, ct_args ct)). split; [easy|]. split.
    + split; [intros _|easy]. apply in_flat_map. exists (CaseSpec vs d). easy.
    + intros dv [= <-]. destruct (case_shape HC) as (C1 & C2 & C3). cbn [fst]. split; [rewrite (C3 _ eq_refl); now destruct b|].
      exists (ct_variant ct). split; [apply in_or_app; right; now left|easy].
  - assert (NI : ~ In (VIdent (bool_name b)) (labels specs)).
    { intros I. apply in_flat_map in I as ([vs d] & HS & HV). pose proof (find_none _ _ FS _ HS) as E. cbn in E.
      assert (existsb (if b then is_true else is_false) vs = true); [|congruence]. apply existsb_exists. exists (VIdent (bool_name b)).
      split; [easy|]. now apply test_name. }
    intros H. destruct (union_complement_index _).
    + apply gbind_ok in H as (r & _ & H). injection H as <-. cbn [up_specs up_default]. split; [intros va Hva; apply in_or_app; now left|].
      exists None. split; [now destruct (up_default acc)|]. split; [easy|discriminate].
    + injection H as <-. split; [easy|]. exists None. split; [now destruct (up_default acc)|]. split; [easy|discriminate].
Qed.

Lemma default_of cfg ds f u : good_spec ds -> one_scope ds -> greturns (fun n => gen_code n cfg ds) (GOk f) -> In u (unions f) ->
  exists x y c specs dflt, In (x, TdUnion y (UBody c specs dflt)) (type_defs ds) /\ camel_of x (un_name u) /\
    names_variant (un_variants u) (un_default u) /\
    match dflt with
    | Some _ => fst (un_default u) = TokId "Default"
    | None => exists v z, In v (labels specs) /\ case_number ds c v z /\
        (forall w z', In w (labels specs) -> case_number ds c w z' -> z <= z') /\
        (forall k, v = VIdent k -> exists m, fst (un_default u) = TokId m /\ camel_of k m)
    end.
Proof.
  intros G OS H Hu. apply greturns_run in H as (n & H & _). destruct (union_item_from H Hu) as (x & y & [c specs dflt] & I & C).
  destruct (good_types G I) as ((gy & gb) & E0). injection E0 as ->. cbn in gb. destruct gb as (gc & ns & gs & gd). apply good_fold in gs.
  exists x, x, c, specs, dflt. split; [easy|]. unfold convert_union_token in C. apply gbind_ok in C as (nm & HN & C).
  apply camel_back in HN as [-> _]. apply gbind_ok in C as (t & HT & C). destruct c as [t' w| | | | | | |]; try discriminate. injection HT as ->.
  apply gbind_ok in C as (p & HP & C). apply gbind_ok in C as (q & HQ & C). cbv zeta in C.
  destruct (up_default q) as [dv|] eqn:DQ; [|discriminate]. injection C as <-. cbn [un_name un_variants un_default]. split; [apply camel_of_camel|].
  assert (PD : (up_cond p <> None) /\ forall dv, up_default p = Some dv -> names_variant (up_specs p) dv /\
     exists v z, In v (labels specs) /\ case_number ds (DVariable t w) v z /\
        (forall w' z', In w' (labels specs) -> case_number ds (DVariable t w) w' z' -> z <= z') /\
        (forall k, v = VIdent k -> exists m, fst dv = TokId m /\ camel_of k m)).
  { assert (VALS : t <> TsBool -> (values <~ gmap (fun s => match s with CaseSpec vs d =>
                                  gmap (fun v => z <~ resolve_value (ctx cfg ds) n KU32 v;; GOk (z, d, v)) vs end) specs;;
                union_values (ctx cfg ds) n t 0 (sort_by (fun p => fst (fst p)) (concat values)) no_parts) = GOk p ->
       (up_cond p <> None) /\ forall dv, up_default p = Some dv -> names_variant (up_specs p) dv /\
     exists v z, In v (labels specs) /\ case_number ds (DVariable t w) v z /\
        (forall w' z', In w' (labels specs) -> case_number ds (DVariable t w) w' z' -> z <= z') /\
        (forall k, v = VIdent k -> exists m, fst dv = TokId m /\ camel_of k m)).
    { intros NB K. apply gbind_ok in K as (vals & HV & K). apply gmap_ok in HV.
      assert (E : forall e d v, In (e, d, v) (concat vals) -> In v (labels specs) /\ value_is ds v e).
      { intros e d v Hi. apply in_concat in Hi as (l & Hl & Hi). destruct (Forall2_in_r HV Hl) as ([vs d'] & Hs & E').
        apply gmap_ok in E'. destruct (Forall2_in_r E' Hi) as (v' & Hv & E''). apply gbind_ok in E'' as (z & Hz & E''). injection E'' as -> -> ->.
        rewrite Forall_forall in gs. destruct (gs _ Hs) as (_ & gv & _). rewrite Forall_forall in gv.
        destruct (resolves_value (good_spec_values G) OS (gv _ Hv) Hz) as [V _]. split; [|exact V]. apply in_flat_map. now exists (CaseSpec vs d). }
      assert (E2 : forall v, In v (labels specs) -> exists e d, In (e, d, v) (concat vals)).
      { intros v Hv. apply in_flat_map in Hv as ([vs d] & Hs & Hv). destruct (Forall2_in_l HV Hs) as (l & Hl & E'). apply gmap_ok in E'.
        destruct (Forall2_in_l E' Hv) as ([[e d'] v'] & Hi & E''). apply gbind_ok in E'' as (z & Hz & E''). injection E'' as -> -> ->.
        exists e, d'. apply in_concat. eauto. }
      apply values_default in K as (_ & K1 & _ & K2). cbn [up_default no_parts] in K2.
      assert (P := sort_by_perm (fun p : Z * decl * value => fst (fst p)) (concat vals)).
      assert (A := sort_by_asc (fun p : Z * decl * value => fst (fst p)) (concat vals)).
      destruct (sort_by _ (concat vals)) as [|[[e d] v] rest].
      { exfalso. destruct specs as [|[vs d] specs]; [easy|]. destruct vs as [|v vs]; [now destruct (proj1 (Forall_forall _ _) gs _ (or_introl eq_refl))|].
        destruct (E2 v) as (e & d' & Hi); [now left|]. apply Permutation_nil in P. rewrite P in Hi. easy. }
      split; [now apply K1|]. intros dv' DP. destruct K2 as (ct & HC & HI & DP'). rewrite DP in DP'. injection DP' as ->.
      destruct (case_shape HC) as (C1 & C2 & C3). split; [now exists (ct_variant ct)|].
      assert (Hf : In (e, d, v) (concat vals)) by (apply (Permutation_in _ P); now left). destruct (E _ _ _ Hf) as [L V].
      assert (CN : forall v z, case_number ds (DVariable t w) v z <-> value_is ds v z) by (intros; unfold case_number; destruct t; easy).
      exists v, e. split; [easy|]. split; [now apply CN|]. split.
      - intros w' z' Hw W. apply CN in W. destruct (E2 _ Hw) as (e' & d' & Hi). destruct (E _ _ _ Hi) as [_ V']. rewrite (value_is_fun W V').
        apply (Permutation_in _ (Permutation_sym P)) in Hi. destruct Hi as [[= -> -> ->]|Hi]; [lia|].
        inversion A as [|? ? A1 _]; subst. exact (A1 _ Hi).
      - intros k ->. exists (camel k). cbn [fst]. split; [now apply C3|apply camel_of_camel]. }
    destruct t; try discriminate HP; try (apply VALS; [easy|exact HP]).
    apply gbind_ok in HP as (p0 & H0 & HP). apply gbind_ok in HP as (p1 & H1 & HP). injection HP as <-. cbn [up_cond up_default up_specs].
    split; [easy|]. intros dv' D. destruct (bool_default H0) as (_ & o0 & B0 & N0 & F0), (bool_default H1) as (S1 & o1 & B1 & N1 & F1).
    cbn [up_default no_parts opt_first] in B0. rewrite B1, B0 in D. cbn [bool_name] in *.
    assert (CN : forall v z, case_number ds (DVariable TsBool w) v z <-> (v = VIdent "FALSE" /\ z = 0 \/ v = VIdent "TRUE" /\ z = 1)) by easy.
    destruct o0 as [d0|].
    - cbn in D. injection D as <-. destruct (F0 d0 eq_refl) as (E1 & va & HA & E2). split; [exists va; split; [now apply S1|easy]|].
      exists (VIdent "FALSE"), 0. split; [now apply N0|]. split; [apply CN; now left|]. split.
      + intros w' z' _ W. apply CN in W. destruct W as [[_ ->]|[_ ->]]; lia.
      + intros k [= <-]. exists "FALSE"%string. split; [easy|]. now apply camel_of_iff.
    - cbn in D. subst o1. destruct (F1 dv' eq_refl) as (E1 & NV). split; [easy|].
      exists (VIdent "TRUE"), 1. split; [now apply N1|]. split; [apply CN; now right|]. split.
      + intros w' z' Hw W. apply CN in W. destruct W as [[-> ->]|[_ ->]]; [|lia]. exfalso. now apply N0.
      + intros k [= <-]. exists "TRUE"%string. split; [easy|]. now apply camel_of_iff. }
  destruct PD as [PC PD]. unfold union_default in HQ. destruct dflt as [d|].
  - apply gbind_ok in HQ as (o & HO & HQ). cbv zeta in HQ. injection HQ as <-. cbn [up_default up_specs] in *. injection DQ as <-.
    split; [|easy]. cbn [snd fst]. eexists. split; [apply in_or_app; right; now left|]. cbn [va_name va_tys]. split; [easy|].
    destruct (union_impl_union _); [|cbn; lia]. rewrite app_length. destruct (up_cond p); [cbn; lia|easy].
  - injection HQ as <-. exact (PD dv DQ).
Qed.
