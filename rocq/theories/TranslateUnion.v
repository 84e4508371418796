(** C115: exactly which interface files are translated: unions, and whole files. *)
From Verif Require Import Base RustTypes Nom NomFacts Keyword Ast ParserModel SpecGrammar SpecParse ParseSound ParserLemmas ConstProofs
  CaseModel SpecCase CaseProofs RustAst GenModel SpecGen SpecItems GenFacts GenTotal GenPanic GenLemmas WireBase
  SpecTranslate TranslateProofs TranslateGen.
From Coq Require Import Permutation.
Set Implicit Arguments.
Unset Strict Implicit.
Local Open Scope list_scope.

Section Union.
  Variables (cfg : config) (ds : list definition).
  Let cx := ctx cfg ds.
  Hypothesis G : good_spec ds.

  Definition cond_ok (t : tyspec) : Prop :=
    typed cfg ds t \/ exists c, t = TsIdent c /\ refused cfg ds t /\ camelable c.

  Lemma case_needs n v d t ct : good_decl d -> good_type t -> t <> TsVoid ->
    convert_case_token cx n v d t = GOk ct -> label_ok v /\ cond_ok t /\ expressible cfg ds d.
  Proof.
    intros gd gt vt H. unfold convert_case_token in H. apply gbind_ok in H as (nm & Hn & H).
    apply gbind_ok in H as (ty & Ht & H). apply gbind_ok in H as (o & Ho & _). split; [|split].
    - destruct v as [c|x]; [easy|]. cbn in Hn. apply gbind_ok in Hn as (y & Hy & _). exact (camel_needs Hy).
    - destruct (convert_primitive_token (resolve_type_token cx n) t) as [r|e| |] eqn:E.
      + left. exact (typed_inv G gt vt E).
      + right. destruct t; try discriminate. apply gbind_ok in Ht as (y & Hy & _). exists x. split; [easy|].
        split; [exact (refused_inv G gt vt E)|exact (camel_needs Hy)].
      + discriminate.
      + discriminate.
    - exact (expressible_inv G gd Ho).
  Qed.
  Lemma case_runs v d t : good_value v -> good_decl d -> good_type t -> t <> TsVoid ->
    label_ok v -> (forall c, v = VConst c -> exists z, constant_value KU32 c = GOk z) ->
    cond_ok t -> expressible cfg ds d -> runs (fun n => convert_case_token cx n v d t).
  Proof.
    intros gv gd gt vt lv cv co ex. unfold convert_case_token.
    assert (V : exists nm, convert_value_token KU32 true v = GOk nm).
    { destruct v as [c|x]; cbn.
      - destruct (cv c eq_refl) as [z E]. rewrite E. cbn. eauto.
      - rewrite camel_ident by easy. cbn. eauto. }
    destruct V as [nm V]. rewrite V. cbn [gbind].
    assert (T : exists ty N, forall n, (N <= n)%nat ->
      match convert_primitive_token (resolve_type_token cx n) t with
      | GErr _ => match t with
                  | TsIdent c => gbind (upper_camel_case_ident c) (fun x => GOk (YName x))
                  | _ => GPanic
                  end
      | r => gbind r (fun '(ty, _) => GOk ty)
      end = GOk ty).
    { destruct co as [co|(c & -> & R & cc)].
      - destruct (typed_runs G co gt vt) as ([ty op] & N & E). exists ty, N. intros n L. now rewrite E.
      - destruct (refused_runs G R gt vt) as (e & N & E). exists (YName (camel c)), N. intros n L. rewrite E by easy.
        now rewrite camel_ident. }
    destruct T as (ty & N & T). eapply runs_bind; [exact T|].
    destruct (expressible_runs G ex gd) as (o & M & O & _). eapply runs_bind; [exact O|].
    eapply runs_const. reflexivity.
  Qed.

  (** *** Unions over numbers *)
  Lemma union_succ z : fits KU32 z -> (exists s, succ_checked (overflow_checks cfg) false z = GOk s) <->
    (overflow_checks cfg = true -> z <> 2 ^ 32 - 1).
  Proof.
    cbn. intros F. unfold succ_checked. destruct (Z.ltb_spec z (2 ^ 32 - 1)); [split; [intros _ _; lia|eauto]|].
    destruct (overflow_checks cfg); [|split; [easy|eauto]]. split; [now intros []|]. intros H'. specialize (H' eq_refl). lia.
  Qed.
  Lemma values_needs n t l : forall s acc p, Forall (fun q : Z * decl * value => fits KU32 (fst (fst q))) l ->
    union_values cx n t s l acc = GOk p ->
    Forall (fun q : Z * decl * value => (exists ct, convert_case_token cx n (snd q) (snd (fst q)) t = GOk ct) /\
      (overflow_checks cfg = true -> fst (fst q) <> 2 ^ 32 - 1) /\
      (forall c, t = TsIdent c -> is_enum_type cx t = true -> camelable c)) l.
  Proof.
    induction l as [|[[z d] v] l IH]; intros s acc p F H; [constructor|].
    inversion F as [|? ? f F']; subst. cbn [union_values] in H. apply gbind_ok in H as (fl & _ & H).
    apply gbind_ok in H as (ct & C & H). apply gbind_ok in H as (bv & B & H). apply gbind_ok in H as (s' & S & H).
    constructor; [|exact (IH _ _ _ F' H)]. split; [eauto|]. split; [apply union_succ; [exact f|]; eauto|].
    intros c -> e. rewrite e in B. apply gbind_ok in B as (y & Y & _). exact (camel_needs Y).
  Qed.
  Lemma values_runs t l : good_type t -> t <> TsVoid ->
    (forall c, t = TsIdent c -> is_enum_type cx t = true -> camelable c) ->
    Forall (fun q : Z * decl * value => good_value (snd q) /\ label_ok (snd q) /\ fits KU32 (fst (fst q)) /\
      (overflow_checks cfg = true -> fst (fst q) <> 2 ^ 32 - 1) /\
      runs (fun n => convert_case_token cx n (snd q) (snd (fst q)) t)) l ->
    forall s acc, 0 <= s -> exists p N, (forall n, (N <= n)%nat -> union_values cx n t s l acc = GOk p) /\
      (up_default acc <> None \/ l <> [] -> up_default p <> None).
  Proof.
    intros gt vt en. induction l as [|[[z d] v] l IH]; intros F s acc Hs.
    { exists acc, O. split; [easy|]. now intros [H|H]. }
    inversion F as [|? ? (gv & lv & fz & ov & (ct & N & C)) F']; subst. cbn [fst snd] in *.
    destruct (proj2 (union_succ fz) ov) as [s' S].
    assert (Fl : exists fl, (if union_complement_index cfg then gmap reserved_variant (zrange s z) else GOk []) = GOk fl).
    { destruct (union_complement_index cfg); [|eauto]. eexists.
      apply (@fill_ok _ _ (fun z => Variant ANone (TokId (reserved_name z)) [])); [easy|].
      intros w Hw. unfold reserved_variant. now rewrite reserved_ok. }
    destruct Fl as [fl Fl].
    assert (B : exists bv, (if is_enum_type cx t then
               match t with
               | TsIdent c =>
                   gbind (upper_camel_case_ident c) (fun c_ident =>
                   match v with
                   | VIdent x => gbind (upper_camel_case_ident x) (fun x_ident =>
                                 GOk [(PtPath c_ident x_ident, ct_name ct)])
                   | VConst _ => GOk []
                   end)
               | _ => GOk []
               end
             else GOk [(PtNum z, ct_name ct)]) = GOk bv).
    { destruct (is_enum_type cx t) eqn:e; [|eauto]. destruct t; eauto. rewrite camel_ident; [|easy|now apply en].
      cbn [gbind]. destruct v as [c|y]; [eauto|]. rewrite camel_ident by easy. cbn. eauto. }
    destruct B as [bv B].
    assert (s0 : 0 <= s').
    { unfold succ_checked in S. cbn in fz. destruct (z <? 2 ^ 32 - 1); [injection S as <-; lia|].
      destruct (overflow_checks cfg); [discriminate|]. injection S as <-; lia. }
    destruct (IH F' s' (UnionParts (up_specs acc ++ fl ++ [ct_variant ct])
                        (up_names acc ++ [(as_i32 z, ct_name ct)])
                        (up_index acc ++ [(ct_name ct, ct_paren ct, as_i32 z)])
                        (up_values acc ++ bv)
                        (opt_first (up_default acc) (Some (ct_name ct, ct_args ct)))
                        (Some (ct_cond ct))) s0) as (p & M & P & D). exists p, (max N M). split.
    - intros n L. cbn [union_values]. change (cx_config cx) with cfg. rewrite Fl. cbn [gbind]. rewrite C by lia. cbn [gbind].
      rewrite B. cbn [gbind]. rewrite S. cbn [gbind]. apply P. lia.
    - intros _. apply D. left. cbn. now destruct (up_default acc).
  Qed.

  Lemma enum_is c l : In (c, TdEnum c l) (type_defs ds) -> is_enum_type cx (TsIdent c) = true.
  Proof. intros I. cbn. apply existsb_exists. exists (c, TdEnum c l). split; [exact I|]. cbn. apply String.eqb_refl. Qed.
  Lemma enum_named c : is_enum_type cx (TsIdent c) = true -> exists l, In (c, TdEnum c l) (type_defs ds).
  Proof.
    cbn. intros H. apply existsb_exists in H as ([x t] & I & E). destruct t as [|y l| |]; try discriminate.
    apply String.eqb_eq in E. subst y. cbn in I. destruct (good_types G I) as [_ e]. injection e as <-. eauto.
  Qed.

  (** what the labels resolve to *)
  Definition arms n (specs : list cspec) :=
    gmap (fun s => match s with CaseSpec vs d =>
      gmap (fun v => gbind (resolve_value cx n KU32 v) (fun z => GOk (z, d, v))) vs end) specs.

  Lemma arms_needs n specs vals : Forall good_case specs -> arms n specs = GOk vals ->
    Forall (fun q : Z * decl * value => fits KU32 (fst (fst q))) (concat vals) /\
    (forall t, (forall q, In q (concat vals) -> (exists ct, convert_case_token cx n (snd q) (snd (fst q)) t = GOk ct) /\
         (overflow_checks cfg = true -> fst (fst q) <> 2 ^ 32 - 1)) ->
       good_type t -> t <> TsVoid -> Forall (arm_ok cfg ds) specs) /\
    (specs <> [] -> exists q, In q (concat vals)).
  Proof.
    intros gs E. apply gmap_ok in E. induction E as [|[vs d] qs specs vals h E IH].
    { split; [constructor|]. split; [constructor|easy]. }
    inversion gs as [|? ? gcs gs']; subst. cbn in gcs. destruct gcs as (ne & gvs & gd). destruct (IH gs') as (I1 & I2 & _). clear IH. apply gmap_ok in h. cbn [concat].
    assert (R : Forall2 (fun v q => exists z, q = (z, d, v) /\ number_is ds KU32 v z /\ fits KU32 z) vs qs).
    { clear - h gvs G. induction h as [|v q vs qs h h' IH]; [constructor|]. inversion gvs as [|? ? gv gvs']; subst.
      constructor; [|now apply IH]. apply gbind_ok in h as (z & R & [= <-]). exists z. split; [easy|].
      exact (number_found G gv R). }
    split; [|split].
    - apply Forall_app. split; [|easy]. clear - R. induction R as [|v q vs qs (z & -> & _ & f) R IH]; constructor; easy.
    - intros t K gt vt. constructor; [|apply (I2 t); try easy; intros q Hq; apply K; apply in_app_iff; now right].
      assert (K' : forall q, In q qs -> (exists ct, convert_case_token cx n (snd q) (snd (fst q)) t = GOk ct) /\
         (overflow_checks cfg = true -> fst (fst q) <> 2 ^ 32 - 1)) by (intros q Hq; apply K; apply in_app_iff; now left).
      cbn [arm_ok]. split.
      + destruct R as [|v q vs qs (z & -> & _ & _) R]; [easy|]. destruct (K' (z, d, v)) as [[ct C] _]; [now left|].
        cbn [fst snd] in C. now destruct (case_needs gd gt vt C) as (_ & _ & ?).
      + clear - K' R G gd gt vt. induction R as [|v q vs qs (z & -> & V & f) R IH]; [constructor|].
        constructor; [|apply IH; intros q Hq; apply K'; now right].
        destruct (K' (z, d, v)) as [[ct C] O]; [now left|]. cbn [fst snd] in C, O.
        destruct (case_needs gd gt vt C) as (L & _ & _). split; [easy|]. exists z. split; [easy|].
        split; [cbn in f; lia|easy].
    - intros _. destruct R as [|v q vs qs _ R]; [easy|]. exists q. now left.
  Qed.
  Lemma arms_runs t specs : Forall good_case specs -> good_type t -> t <> TsVoid -> cond_ok t -> Forall (arm_ok cfg ds) specs ->
    exists vals N, (forall n, (N <= n)%nat -> arms n specs = GOk vals) /\
    Forall (fun q : Z * decl * value => good_value (snd q) /\ label_ok (snd q) /\ fits KU32 (fst (fst q)) /\
      (overflow_checks cfg = true -> fst (fst q) <> 2 ^ 32 - 1) /\
      runs (fun n => convert_case_token cx n (snd q) (snd (fst q)) t)) (concat vals) /\
    (specs <> [] -> concat vals <> []).
  Proof.
    intros gs gt vt co A. induction specs as [|[vs d] specs IH].
    { exists [], O. split; [easy|]. split; [constructor|easy]. }
    inversion gs as [|? ? gcs gs']; subst. cbn in gcs. destruct gcs as (ne & gvs & gd). inversion A as [|? ? Acs A']; subst. cbn in Acs. destruct Acs as [ex Av].
    destruct (IH gs' A') as (vals & M & I1 & I2 & _).
    assert (R : exists qs N, (forall n, (N <= n)%nat ->
       gmap (fun v => gbind (resolve_value cx n KU32 v) (fun z => GOk (z, d, v))) vs = GOk qs) /\
       Forall (fun q : Z * decl * value => good_value (snd q) /\ label_ok (snd q) /\ fits KU32 (fst (fst q)) /\
      (overflow_checks cfg = true -> fst (fst q) <> 2 ^ 32 - 1) /\
      runs (fun n => convert_case_token cx n (snd q) (snd (fst q)) t)) qs /\ (vs <> [] -> qs <> [])).
    { clear - G gvs gd gt vt co ex Av. induction vs as [|v vs IH].
      - exists [], O. split; [easy|]. split; [constructor|easy].
      - inversion gvs as [|? ? gv gvs']; inversion Av as [|? ? (lv & z & V & (rz & oz)) Av']; subst.
        destruct (IH gvs' Av') as (qs & M & K1 & K2 & _).
        destruct (@value_runs cfg ds G KU32 v z gv V) as [N R]; [cbn; lia|].
        exists ((z, d, v) :: qs), (max N M). split; [|split; [|easy]].
        + intros n L. cbn. unfold cx. rewrite R by lia. cbn. fold cx. rewrite K1 by lia. easy.
        + constructor; [|easy]. cbn [fst snd]. split; [easy|]. split; [easy|]. split; [cbn; lia|]. split; [easy|].
          apply case_runs; try easy. intros c ->. exists z. specialize (R N ltac:(lia)). exact R. }
    destruct R as (qs & N & R1 & R2 & R3). exists (qs :: vals), (max N M). split; [|split].
    - intros n L. unfold arms. cbn. rewrite R1 by lia. cbn. unfold arms in I1. rewrite I1 by lia. easy.
    - cbn [concat]. now apply Forall_app.
    - intros _. cbn [concat]. destruct vs as [|v vs]; [easy|]. destruct qs; [now destruct R3|easy].
  Qed.

  (** *** Unions over bool *)
  Definition truth (b : bool) : value := VIdent (if b then "TRUE" else "FALSE")%string.
  Lemma truth_test (b : bool) (v : value) : (if b then is_true else is_false) v = true <-> v = truth b.
  Proof. unfold truth. destruct v as [c|x], b; cbn; try (split; discriminate); rewrite String.eqb_eq; split; congruence. Qed.
  Lemma truth_exists (b : bool) (vs : list value) : existsb (if b then is_true else is_false) vs = true <-> In (truth b) vs.
  Proof.
    rewrite existsb_exists. split.
    - intros (v & Hv & T). apply truth_test in T. now subst v.
    - intros H. exists (truth b). split; [easy|]. now apply truth_test.
  Qed.
  Lemma find_arm (b : bool) (specs : list cspec) :
    match find (fun s => match s with CaseSpec vs _ => existsb (if b then is_true else is_false) vs end) specs with
    | Some (CaseSpec vs d) => In (truth b) vs /\ In (CaseSpec vs d) specs /\ forall d', arm_of (truth b) specs d' <-> d' = d
    | None => ~ In (truth b) (labels specs)
    end.
  Proof.
    induction specs as [|[vs d] specs IH]; [easy|]. cbn [find].
    destruct (existsb _ vs) eqn:e.
    - apply truth_exists in e. split; [easy|]. split; [now left|]. intros d'. split.
      + intros (a & vs' & c & E & I & N). destruct a as [|[us u] a]; [now injection E|].
        injection E as <- <- _. exfalso. apply N. cbn. apply in_app_iff. now left.
      + intros ->. exists [], vs, specs. easy.
    - assert (ne : ~ In (truth b) vs) by (rewrite <- truth_exists; congruence).
      destruct (find _ specs) as [[us u]|].
      + destruct IH as (h1 & h2 & h3). split; [easy|]. split; [now right|]. intros d'. rewrite <- h3. split.
        * intros (a & vs' & c & E & I & N). destruct a as [|s a]; [injection E as <- <- _; easy|].
          injection E as <- E. exists a, vs', c. split; [easy|]. split; [easy|]. intros K. apply N. cbn. apply in_app_iff. now right.
        * intros (a & vs' & c & E & I & N). exists (CaseSpec vs d :: a), vs', c. split; [now rewrite E|]. split; [easy|].
          cbn. intros K. apply in_app_iff in K as [K|K]; easy.
      + cbn. intros K. apply in_app_iff in K as [K|K]; easy.
  Qed.
  Lemma arm_label v specs d : arm_of v specs d -> In v (labels specs).
  Proof.
    intros (a & vs & b & -> & I & _). unfold labels. rewrite flat_map_app. apply in_app_iff. right. cbn. apply in_app_iff. now left.
  Qed.
  Lemma find_truth (b : bool) (vs : list value) : In (truth b) vs -> find (if b then is_true else is_false) vs = Some (truth b).
  Proof.
    intros I. destruct (find _ vs) as [v|] eqn:f.
    - apply find_some in f as [_ f]. apply truth_test in f. now subst.
    - pose proof (find_none _ _ f _ I) as K. assert (E : (if b then is_true else is_false) (truth b) = true) by now apply truth_test.
      congruence.
  Qed.

  Lemma bool_needs n b specs acc p : Forall good_case specs -> bool_case cx n TsBool b specs acc = GOk p ->
    (forall d, arm_of (truth b) specs d -> expressible cfg ds d) /\
    (up_default p <> None -> up_default acc <> None \/ In (truth b) (labels specs)).
  Proof.
    intros gs H. unfold bool_case in H. pose proof (find_arm b specs) as F. cbv zeta in H.
    destruct (find _ specs) as [[vs d]|].
    - destruct F as (I & Is & U). rewrite (find_truth I) in H. apply gbind_ok in H as (ct & C & [= <-]).
      rewrite Forall_forall in gs. destruct (gs _ Is) as (_ & _ & gd).
      split; [|intros _; right; apply arm_label with d; now apply U].
      intros d' A. apply U in A. subst d'. now destruct (@case_needs n (truth b) d TsBool ct gd Logic.I ltac:(discriminate) C) as (_ & _ & ?).
    - split; [intros d A; exfalso; apply F; exact (arm_label A)|]. intros D. left.
      destruct (union_complement_index _).
      + apply gbind_ok in H as (r & _ & [= <-]). exact D.
      + now injection H as <-.
  Qed.
  Lemma bool_runs b specs acc : Forall good_case specs ->
    (forall d, arm_of (truth b) specs d -> expressible cfg ds d) ->
    exists p N, (forall n, (N <= n)%nat -> bool_case cx n TsBool b specs acc = GOk p) /\
      (up_default acc <> None \/ In (truth b) (labels specs) -> up_default p <> None).
  Proof.
    intros gs H. unfold bool_case. pose proof (find_arm b specs) as F. cbv zeta.
    destruct (find _ specs) as [[vs d]|].
    - destruct F as (I & Is & U). rewrite (find_truth I). rewrite Forall_forall in gs. destruct (gs _ Is) as (_ & _ & gd).
      destruct (@case_runs (truth b) d TsBool) as (ct & N & C); try easy.
      + destruct (gs _ Is) as (_ & gv & _). rewrite Forall_forall in gv. now apply gv.
      + destruct b; reflexivity.
      + left. constructor. constructor.
      + apply H. now apply U.
      + eexists. exists N. split; [intros n L; rewrite C by easy; cbn [gbind]; reflexivity|]. intros _. cbn. now destruct (up_default acc).
    - change (cx_config cx) with cfg. destruct (union_complement_index cfg).
      + unfold reserved_variant. rewrite reserved_ok by (destruct b; lia). cbn [gbind]. eexists. exists O. split; [reflexivity|].
        cbn. intros [D|D]; [exact D|now apply F in D].
      + exists acc, O. split; [easy|]. intros [D|D]; [exact D|now apply F in D].
  Qed.

  (** *** Unions *)
  Lemma union_needs n x y u i : In (x, TdUnion y u) (type_defs ds) -> convert_union_token cx n x u = GOk i ->
    camelable x /\ union_body_ok cfg ds u.
  Proof.
    intros H C. destruct (good_types G H) as [gt nx]. destruct gt as (_ & gu). destruct u as [c specs dflt].
    cbn [good_union_body] in gu. destruct gu as (gc & ns & gs & gd). apply good_fold in gs.
    cbn [convert_union_token] in C. apply gbind_ok in C as (ni & Ni & C). split; [exact (camel_needs Ni)|].
    apply gbind_ok in C as (t & Et & C). apply gbind_ok in C as (p & Ep & C). apply gbind_ok in C as (q & Eq & C). cbv zeta in C.
    assert (Mc : mentions c = Some t) by (destruct c; try discriminate; cbn; congruence).
    destruct (good_mentions gc Mc) as [gt vt].
    assert (D : up_default q <> None) by (destruct (up_default q); [easy|discriminate]). clear C.
    assert (D2 : (forall d, dflt = Some d -> expressible cfg ds d) /\ (dflt = None -> up_default p <> None)).
    { unfold union_default in Eq. destruct dflt as [d|].
      - apply gbind_ok in Eq as (o & Eo & _). split; [|easy]. intros d' [= <-]. exact (expressible_inv G gd Eo).
      - injection Eq as <-. easy. }
    destruct D2 as [D2 D3]. cbn [union_body_ok]. split; [|exact D2].
    assert (VN : forall vals p, arms n specs = GOk vals ->
      union_values cx n t 0 (sort_by (fun p => fst (fst p)) (concat vals)) no_parts = GOk p ->
      Forall (arm_ok cfg ds) specs /\ cond_ok t /\ (forall c, t = TsIdent c -> is_enum_type cx t = true -> camelable c)).
    { intros vals p' Ea Eu. destruct (arms_needs gs Ea) as (A1 & A2 & A3).
      assert (K : forall q, In q (concat vals) -> (exists ct, convert_case_token cx n (snd q) (snd (fst q)) t = GOk ct) /\
         (overflow_checks cfg = true -> fst (fst q) <> 2 ^ 32 - 1) /\
         (forall c, t = TsIdent c -> is_enum_type cx t = true -> camelable c)).
      { intros q' Hq. assert (Hs : In q' (sort_by (fun p => fst (fst p)) (concat vals))) by now apply sort_by_in.
        apply values_needs in Eu.
        - rewrite Forall_forall in Eu. now apply Eu.
        - apply Forall_forall. intros r Hr. apply sort_by_in in Hr. rewrite Forall_forall in A1. now apply A1. }
      split; [apply (A2 t); try easy; intros q' Hq; destruct (K q' Hq) as (k1 & k2 & _); now split|]. destruct A3 as [[[z d] v] Hq]; [now destruct specs|]. destruct (K _ Hq) as ([ct C] & _ & K3).
      split; [|exact K3].
      cbn [fst snd] in C. unfold convert_case_token in C. apply gbind_ok in C as (nm & _ & C). apply gbind_ok in C as (ty & Hty & _).
      destruct (convert_primitive_token (resolve_type_token cx n) t) as [r|e| |] eqn:E.
      - left. exact (typed_inv G gt vt E).
      - right. destruct t; try discriminate. apply gbind_ok in Hty as (w & Hw & _). exists x0. split; [easy|].
        split; [exact (refused_inv G gt vt E)|exact (camel_needs Hw)].
      - discriminate.
      - discriminate. }
    exists t, match c with DVariable _ z => z | _ => EmptyString end.
    split; [destruct c; try discriminate; cbn in Mc; congruence|].
    destruct t; try discriminate; cbn [switch_ok].
    - apply gbind_ok in Ep as (vals & Ea & Eu). now apply (VN vals p).
    - apply gbind_ok in Ep as (p1 & E1 & Ep). apply gbind_ok in Ep as (p2 & E2 & [= <-]). cbn [up_default] in D3.
      destruct (bool_needs gs E1) as [b1 b2]. destruct (bool_needs gs E2) as [b3 b4]. split.
      + intros v d [->| ->] A; [exact (b3 d A)|exact (b1 d A)].
      + intros nd. specialize (D3 nd). destruct (b4 D3) as [K|K]; [|now left]. destruct (b2 K) as [K'|K']; [easy|now right].
    - apply gbind_ok in Ep as (vals & Ea & Eu). destruct (VN vals p Ea Eu) as (h1 & h2 & h3). split; [easy|].
      split; [|intros l I; apply (h3 x0 eq_refl); exact (enum_is I)].
      clear h3. destruct h2 as [h2|(c' & [= <-] & h2 & h3)]; [now left|right; easy].
  Qed.

  Lemma union_runs x y u : In (x, TdUnion y u) (type_defs ds) -> camelable x -> union_body_ok cfg ds u ->
    runs (fun n => convert_union_token cx n x u).
  Proof.
    intros H cx' U. destruct (good_types G H) as [gt nx]. 
    assert (gx : good_name x) by (cbn in nx; injection nx as <-; apply gt).
    destruct gt as (_ & gu). destruct u as [c specs dflt].
    cbn [good_union_body] in gu. destruct gu as (gc & ns & gs & gd). apply good_fold in gs.
    cbn [union_body_ok] in U. destruct U as [(t & z & -> & U) D].
    destruct (good_mentions gc (eq_refl : mentions (DVariable t z) = Some t)) as [gt vt].
    cbn [convert_union_token]. rewrite camel_ident by easy. cbn [gbind].
    match goal with |- runs (fun n => gbind (@?parts n) _) =>
      assert (PP : exists p N, (forall n, (N <= n)%nat -> parts n = GOk p) /\ (dflt = None -> up_default p <> None)) end.
    { assert (V : Forall (arm_ok cfg ds) specs -> cond_ok t ->
        (forall c l, t = TsIdent c -> In (c, TdEnum c l) (type_defs ds) -> camelable c) -> exists p N, (forall n, (N <= n)%nat ->
        gbind (arms n specs) (fun values => union_values cx n t 0 (sort_by (fun p => fst (fst p)) (concat values)) no_parts) = GOk p) /\
        (dflt = None -> up_default p <> None)).
      { intros A co en. destruct (arms_runs gs gt vt co A) as (vals & N & R & F & ne).
        destruct (@values_runs t (sort_by (fun p => fst (fst p)) (concat vals)) gt vt) with (s := 0) (acc := no_parts) as (p & M & P & K).
        - intros c -> E. destruct (enum_named E) as [l L]. exact (en c l eq_refl L).
        - apply Forall_forall. intros q Hq. apply sort_by_in in Hq. rewrite Forall_forall in F. now apply F.
        - lia.
        - exists p, (max N M). split; [intros n L; rewrite R by lia; cbn [gbind]; apply P; lia|]. intros _. apply K. right.
          intros e. apply ne; [now destruct specs|]. apply Permutation_nil. rewrite <- e. apply sort_by_perm. }
      destruct t; cbn [switch_ok] in U; try easy; cbv beta iota.
      - apply V; [easy|left; constructor; constructor|discriminate].
      - destruct U as [U1 U2].
        destruct (@bool_runs false specs no_parts gs) as (p1 & N1 & R1 & K1); [intros d; apply U1; now right|].
        destruct (@bool_runs true specs p1 gs) as (p2 & N2 & R2 & K2); [intros d; apply U1; now left|].
        eexists. exists (max N1 N2). split; [intros n L; rewrite R1 by lia; cbn [gbind]; rewrite R2 by lia; cbn [gbind]; reflexivity|].
        intros nd. cbn [up_default]. apply K2. destruct (U2 nd) as [K|K]; [now right|left]. apply K1. now right.
      - destruct U as (Ua & U & Ue). apply V; [easy|destruct U as [U|[U1 U2]]; [now left|right; eauto]|].
        intros c l [= <-]. apply Ue. }
    destruct PP as (p & N & P & K). eapply runs_bind; [exact P|].
    assert (Q : exists q N, (forall n, (N <= n)%nat -> union_default cx n dflt p = GOk q) /\ up_default q <> None).
    { unfold union_default. destruct dflt as [d|].
      - destruct (expressible_runs G (D d eq_refl) gd) as (o & M & O & _). eexists. exists M. split.
        + intros n L. fold cx. rewrite O by easy. cbn [gbind]. reflexivity.
        + easy.
      - exists p, O. split; [easy|now apply K]. }
    destruct Q as (q & M & Q & nq). eapply runs_bind; [exact Q|]. cbv zeta. destruct (up_default q); [|easy].
    eapply runs_const. reflexivity.
  Qed.

  (** *** Typedefs *)
  Lemma kept_opaque n d ty op : remove_typedef cfg = false -> convert_type_token (resolve_type_token cx n) d = GOk (Some (ty, op)) ->
    op = OpNone <-> ~ is_opaque d.
  Proof.
    intros r H.
    assert (P : forall t ty op, convert_primitive_token (resolve_type_token cx n) t = GOk (ty, op) -> op = OpNone).
    { intros t ty' op'. destruct t; cbn [convert_primitive_token]; try discriminate; try (intros [= <- <-]; reflexivity).
      destruct n as [|m]; [discriminate|]. cbn [resolve_type_token]. change (cx_config cx) with cfg. rewrite r.
      intros E. apply gbind_ok in E as (y & _ & [= <- <-]). easy. }
    destruct d; cbn [convert_type_token is_opaque] in *;
      try (apply gbind_ok in H as ([ty' op'] & E & H); apply P in E; subst op');
      try (injection H as <- <-; split; [now intros _|easy]).
    - apply gbind_ok in H as (u & _ & [= <- <-]). split; [now intros _|easy].
    - apply gbind_ok in H as (u & _ & [= <- <-]). split; [discriminate|tauto].
    - injection H as <- <-. split; [discriminate|tauto].
    - discriminate.
  Qed.

  (** *** Files *)
  Lemma type_needs n p l : In p (type_defs ds) -> type_token_of cx n p = GOk l -> type_ok cfg ds p.
  Proof.
    destruct p as [x t]. intros I H. destruct t as [d|y m|y m|y u]; cbn [type_token_of type_ok fst snd] in *.
    - unfold type_ok. cbn [fst snd]. change (cx_config cx) with cfg in H.
      destruct (remove_typedef cfg) eqn:r; [now left|right]. destruct (good_types G I) as [gd _].
      apply gbind_ok in H as (o & Ho & H). apply gbind_ok in H as ([ty op] & Hr & H).
      destruct o as [q|]; [|discriminate]. cbn in Hr. injection Hr as ->.
      assert (op = OpNone) by (destruct op; [easy|discriminate|discriminate]). subst op.
      apply gbind_ok in H as (w & Hw & _). split; [exact (camel_needs Hw)|]. split; [exact (expressible_inv G gd Ho)|].
      now apply (kept_opaque r Ho).
    - apply gbind_ok in H as (e & H & _). exact (enum_needs G I H).
    - apply gbind_ok in H as (e & H & _). exact (struct_needs G I H).
    - apply gbind_ok in H as (e & H & _). exact (union_needs I H).
  Qed.
  Lemma type_runs p : In p (type_defs ds) -> type_ok cfg ds p -> runs (fun n => type_token_of cx n p).
  Proof.
    intros I H. destruct p as [x t]. destruct t as [d|y m|y m|y u]; unfold type_ok in H; cbn [type_token_of fst snd] in *.
    - change (cx_config cx) with cfg. destruct (remove_typedef cfg) eqn:r; [eapply runs_const; reflexivity|].
      destruct H as [H|(c & ex & no)]; [discriminate|]. destruct (good_types G I) as [gd nx].
      destruct (expressible_runs G ex gd) as (o & N & R & v). eapply runs_bind; [exact R|].
      destruct o as [[ty op]|]; [|exfalso; apply v; [intros ->; discriminate|easy]]. cbn [required gbind].
      assert (op = OpNone) as -> by (apply (@kept_opaque N d ty op r); [apply R; lia|easy]).
      rewrite camel_ident; [eapply runs_const; reflexivity|exact (good_type_name gd nx)|easy].
    - destruct H as [c H]. destruct (enum_runs G I c H) as (e & N & R). eapply runs_bind; [exact R|]. eapply runs_const. reflexivity.
    - destruct H as [c H]. destruct (struct_runs G I c H) as (e & N & R). eapply runs_bind; [exact R|]. eapply runs_const. reflexivity.
    - destruct H as [c H]. destruct (union_runs I c H) as (e & N & R). eapply runs_bind; [exact R|]. eapply runs_const. reflexivity.
  Qed.
End Union.

Theorem translated cfg ds : good_spec ds ->
  (exists f, greturns (fun n => gen_code n cfg ds) (GOk f)) <-> translatable cfg ds.
Proof.
  intros G. split.
  - intros [f H]. apply greturns_run in H as (n & H & _). apply gen_ok_parts in H as [Hc Ht]. split.
    + pose proof (good_consts G) as F. apply gmap_ok in Hc. cbn [constants ctx] in Hc.
      induction Hc as [|[x v] c l cs h Hc IH]; [constructor|]. inversion F as [|? ? [g1 g2] F']; subst.
      constructor; [|now apply IH]. apply (@const_size x v g1 g2). eauto.
    + unfold types_token in Ht. apply gbind_ok in Ht as (ls & Ht & _). apply Forall_forall. intros p Hp.
      destruct (@gmap_in _ _ _ _ _ p Ht Hp) as [b B]. exact (type_needs G Hp B).
  - intros [Hc Ht].
    assert (C : exists cs, constants_token (ctx cfg ds) = GOk cs).
    { destruct (@runs_gmap _ _ (fun _ => constant_token) (const_defs ds)) as (cs & N & R); [|exists cs; exact (R N ltac:(lia))].
      intros [x v] I. pose proof (good_consts G) as F. rewrite Forall_forall in F, Hc. destruct (F _ I) as [g1 g2]. cbn [fst snd] in g1, g2.
      destruct (proj2 (@const_size x v g1 g2) (Hc _ I)) as [c K]. exact (runs_const K). }
    destruct C as [cs C].
    assert (R : runs (fun n => gen_code n cfg ds)).
    { eapply runs_ext; [intros n; symmetry; apply gen_code_eq|]. rewrite C. cbn [gbind].
      destruct (@runs_gmap _ _ (fun n => type_token_of (ctx cfg ds) n) (type_defs ds)) as (ls & N & R).
      - intros p I. rewrite Forall_forall in Ht. apply type_runs; try easy. now apply Ht.
      - eapply runs_bind with (N := N) (a := concat ls); [|eapply runs_const; reflexivity].
        intros n L. unfold types_token. cbn [typedefs ctx]. rewrite R by easy. easy. }
    destruct R as (f & N & R). exists f. split; [easy|]. eauto.
Qed.

Theorem tool_translated fl checks t ds : greturns (fun n => parse n t) (GOk ds) ->
  (exists f, greturns (fun n => rpcgen n fl checks t) (GOk f)) <-> translatable (main_config fl checks) ds.
Proof.
  intros P. rewrite <- (translated (main_config fl checks) (c34 P)). destruct P as [_ [N P]]. split.
  - intros [f [_ [M H]]]. exists f. split; [easy|]. exists (max N M). intros n L. specialize (H n ltac:(lia)).
    unfold rpcgen in H. rewrite P in H by lia. exact H.
  - intros [f [_ [M H]]]. exists f. split; [easy|]. exists (max N M). intros n L.
    unfold rpcgen. rewrite P by lia. cbn [gbind]. apply H. lia.
Qed.
