(** C117: exactly on which interface files the generator panics: unions, and whole files. *)
From Verif Require Import Base RustTypes Nom NomFacts Keyword Ast ParserModel SpecGrammar SpecParse ParseSound ParserLemmas ConstProofs
  CaseModel SpecCase CaseProofs RustAst GenModel SpecGen SpecItems GenFacts GenTotal GenPanic GenLemmas WireBase
  SpecTranslate TranslateProofs TranslateGen TranslateUnion SpecToolPanic ToolPanicProofs.
From Coq Require Import Permutation.
Set Implicit Arguments.
Unset Strict Implicit.
Local Open Scope list_scope.

Lemma ident_total x : (exists y, upper_camel_case_ident x = GOk y) \/ upper_camel_case_ident x = GPanic.
Proof. unfold upper_camel_case_ident, ident_new. destruct (ident_text _); eauto. Qed.

Section Unions.
  Variables (cfg : config) (ds : list definition).
  Let cx := ctx cfg ds.
  Hypothesis G : good_spec ds.
  Definition key (q : Z * decl * value) : Z := fst (fst q).
  Definition good_label (q : Z * decl * value) : Prop :=
    good_value (snd q) /\ good_decl (snd (fst q)) /\ fits KU32 (key q) /\ number_is ds KU32 (snd q) (key q).
  Definition switchable (t : tyspec) : Prop := match t with TsInt _ | TsBool | TsIdent _ => True | _ => False end.

  Lemma not_refused t : switchable t -> refused cfg ds t -> exists c, t = TsIdent c.
  Proof. intros s r. destruct t; try easy; eauto; now inversion r. Qed.
  Lemma label_value v z : good_value v -> fits KU32 z -> number_is ds KU32 v z -> label_ok v -> exists nm, convert_value_token KU32 true v = GOk nm.
  Proof.
    intros g f V l. destruct v as [c|x]; cbn.
    - destruct (@value_runs cfg ds G KU32 (VConst c) z g V f) as [N R]. specialize (R N ltac:(lia)). cbn in R. rewrite R. cbn. eauto.
    - rewrite camel_ident by easy. cbn. eauto.
  Qed.

  (** one case *)
  Lemma case_panic_inv n v d t : good_value v -> good_decl d -> good_type t -> switchable t ->
    convert_case_token cx n v d t = GPanic ->
    ~ label_ok v \/ unnamed cfg ds t \/ (exists c, t = TsIdent c /\ refused cfg ds t /\ ~ camelable c) \/
    cond_ok cfg ds t /\ decl_unnamed cfg ds d.
  Proof.
    intros gv gd gt st H. assert (vt : t <> TsVoid) by (intros ->; easy).
    unfold convert_case_token in H. apply gbind_panic in H as [H|(nm & _ & H)]; [left; now apply value_panic in H|right].
    apply gbind_panic in H as [H|(ty & T & H)].
    - destruct (convert_primitive_token (resolve_type_token cx n) t) as [[]|e| |] eqn:E; try discriminate.
      + pose proof (refused_inv G gt vt E) as R. destruct (not_refused st R) as [c ->]. right. left. exists c.
        apply gbind_panic in H as [H|(y & _ & H)]; [|discriminate]. split; [easy|]. split; [easy|]. now apply camel_not.
      + left. exact (unnamed_inv G gt vt E).
    - right. right. split.
      + destruct (convert_primitive_token (resolve_type_token cx n) t) as [r|e| |] eqn:E; try discriminate.
        * left. exact (typed_inv G gt vt E).
        * right. destruct t; try discriminate. apply gbind_ok in T as (y & Hy & _). exists x. split; [easy|].
          split; [exact (refused_inv G gt vt E)|exact (camel_needs Hy)].
      + apply gbind_panic in H as [H|(o & _ & H)]; [|discriminate]. exact (decl_unnamed_inv G gd H).
  Qed.
  Lemma case_pruns v d t : good_decl d -> good_type t -> switchable t ->
    (label_ok v -> exists nm, convert_value_token KU32 true v = GOk nm) ->
    ~ label_ok v \/ unnamed cfg ds t \/ (exists c, t = TsIdent c /\ refused cfg ds t /\ ~ camelable c) \/
    cond_ok cfg ds t /\ decl_unnamed cfg ds d ->
    pruns (fun n => convert_case_token cx n v d t).
  Proof.
    intros gd gt st V H. assert (vt : t <> TsVoid) by (intros ->; easy). unfold convert_case_token.
    assert (D : label_ok v \/ ~ label_ok v) by (destruct v as [c|x]; [now left|apply camel_dec]).
    destruct D as [D|D].
    2:{ destruct v as [c|x]; [now destruct D|]. cbn [convert_value_token]. rewrite (camel_panic D). now exists O. }
    destruct (V D) as [nm E]. rewrite E. cbn [gbind]. destruct H as [H|[H|[(c & -> & R & nc)|[co H]]]]; [easy|..].
    - destruct (unnamed_runs H) as [N R]. exists N. intros n L. unfold cx. rewrite R by easy. easy.
    - destruct (refused_runs G R gt vt) as (e & N & P). exists N. intros n L. unfold cx. rewrite P by easy.
      now rewrite camel_panic.
    - assert (T : exists ty N, forall n, (N <= n)%nat ->
        match convert_primitive_token (resolve_type_token cx n) t with
        | GErr _ => match t with
                    | TsIdent c => gbind (upper_camel_case_ident c) (fun x => GOk (YName x))
                    | _ => GPanic
                    end
        | r => gbind r (fun '(ty, _) => GOk ty)
        end = GOk ty).
      { destruct co as [co|(c & -> & R & cc)].
        - destruct (typed_runs G co gt vt) as ([ty op] & N & P). exists ty, N. intros n L. unfold cx. now rewrite P.
        - destruct (refused_runs G R gt vt) as (e & N & P). exists (YName (camel c)), N. intros n L. unfold cx. rewrite P by easy.
          now rewrite camel_ident. }
      destruct T as (ty & N & T). eapply pruns_snd; [exact T|]. apply pruns_fst. exact (decl_unnamed_runs H).
  Qed.

  (** one round of the loop over the values *)
  Definition by_value t (z : Z) (v : value) (ct : case_token) : gres (list (pat * vtoken)) :=
    if is_enum_type cx t then
      match t with
      | TsIdent c =>
          gbind (upper_camel_case_ident c) (fun c_ident =>
          match v with
          | VIdent x => gbind (upper_camel_case_ident x) (fun x_ident => GOk [(PtPath c_ident x_ident, ct_name ct)])
          | VConst _ => GOk []
          end)
      | _ => GOk []
      end
    else GOk [(PtNum z, ct_name ct)].
  Definition fill s z : gres (list variant) := if union_complement_index cfg then gmap reserved_variant (zrange s z) else GOk [].
  Definition after z fl ct bv acc : union_parts :=
    UnionParts (up_specs acc ++ fl ++ [ct_variant ct]) (up_names acc ++ [(as_i32 z, ct_name ct)])
      (up_index acc ++ [(ct_name ct, ct_paren ct, as_i32 z)]) (up_values acc ++ bv)
      (opt_first (up_default acc) (Some (ct_name ct, ct_args ct))) (Some (ct_cond ct)).
  Lemma values_cons n t s z d v l acc : union_values cx n t s ((z, d, v) :: l) acc =
    gbind (fill s z) (fun fl => gbind (convert_case_token cx n v d t) (fun ct => gbind (by_value t z v ct) (fun bv =>
    gbind (succ_checked (overflow_checks cfg) false z) (fun s' => union_values cx n t s' l (after z fl ct bv acc))))).
  Proof. reflexivity. Qed.
  Lemma fill_good s z : 0 <= s -> exists fl, fill s z = GOk fl.
  Proof.
    intros Hs. unfold fill. destruct (union_complement_index cfg); [|eauto]. eexists.
    apply (@fill_ok _ _ (fun z => Variant ANone (TokId (reserved_name z)) [])); [easy|].
    intros w Hw. unfold reserved_variant. now rewrite reserved_ok.
  Qed.
  Lemma succ_nonneg z s : fits KU32 z -> succ_checked (overflow_checks cfg) false z = GOk s -> 0 <= s.
  Proof.
    intros f S. unfold succ_checked in S. cbn in f. destruct (z <? 2 ^ 32 - 1); [injection S as <-; lia|].
    destruct (overflow_checks cfg); [discriminate|]. injection S as <-; lia.
  Qed.
  Lemma enum_name_iff t : enum_name_ok ds t <-> (forall c, t = TsIdent c -> is_enum_type cx t = true -> camelable c).
  Proof.
    split.
    - intros H c -> E. destruct (enum_named G E) as [l L]. exact (H c l eq_refl L).
    - intros H c l -> I. apply (H c eq_refl). exact (enum_is cfg I).
  Qed.
  Lemma by_value_ok t z v ct : good_type t -> good_value v -> label_ok v -> enum_name_ok ds t -> exists bv, by_value t z v ct = GOk bv.
  Proof.
    intros gt gv lv en. unfold by_value. destruct (is_enum_type cx t) eqn:e; [|eauto]. destruct t; eauto.
    rewrite camel_ident; [|easy|now apply (proj1 (enum_name_iff _) en)].
    cbn [gbind]. destruct v as [c|y]; [eauto|]. rewrite camel_ident by easy. cbn. eauto.
  Qed.
  Lemma by_value_needs t z v ct bv : by_value t z v ct = GOk bv -> enum_name_ok ds t.
  Proof.
    intros B. apply enum_name_iff. intros c -> e. unfold by_value in B. rewrite e in B.
    apply gbind_ok in B as (y & Y & _). exact (camel_needs Y).
  Qed.
  Lemma by_value_total t z v ct : good_value v -> label_ok v -> by_value t z v ct = GPanic \/ exists bv, by_value t z v ct = GOk bv.
  Proof.
    intros gv lv. unfold by_value. destruct (is_enum_type cx t); [|eauto]. destruct t; eauto.
    destruct (ident_total x) as [[y E]|E]; rewrite E; cbn [gbind]; [|now left]. destruct v as [c|w]; [eauto|].
    rewrite camel_ident by easy. cbn. eauto.
  Qed.
  Lemma succ_panic z : fits KU32 z -> succ_checked (overflow_checks cfg) false z = GPanic <-> overflow_checks cfg = true /\ z = 2 ^ 32 - 1.
  Proof.
    cbn. intros f. unfold succ_checked. destruct (Z.ltb_spec z (2 ^ 32 - 1)); [split; [discriminate|lia]|].
    destruct (overflow_checks cfg); split; try discriminate; [intros _; split; [easy|lia]|easy|intros []; discriminate].
  Qed.

  (** labels that are fine are passed over *)
  Lemma fine_case q t : good_label q -> good_type t -> switchable t -> label_fine cfg ds t q ->
    runs (fun n => convert_case_token cx n (snd q) (snd (fst q)) t).
  Proof.
    intros (gv & gd & f & V) gt st (lv & co & ex & _). apply case_runs; try easy; [intros ->; easy|].
    intros c E. exists (key q). rewrite E in *. destruct (@value_runs cfg ds G KU32 (VConst c) (key q) gv V f) as [N R].
    exact (R N ltac:(lia)).
  Qed.
  Lemma values_app t a rest : good_type t -> switchable t -> Forall (fun q => good_label q /\ label_fine cfg ds t q) a ->
    forall s acc, 0 <= s -> exists s' acc' N, 0 <= s' /\
      forall n, (N <= n)%nat -> union_values cx n t s (a ++ rest) acc = union_values cx n t s' rest acc'.
  Proof.
    intros gt st. induction a as [|[[z d] v] a IH]; intros F s acc Hs; [now exists s, acc, O|].
    inversion F as [|? ? [g fi] F']; subst. destruct (fine_case g gt st fi) as (ct & N & C). cbn [fst snd] in C.
    destruct g as (gv & gd & f & V). destruct fi as (lv & co & ex & en & ov). unfold key in *. cbn [fst snd] in *.
    destruct (fill_good z Hs) as [fl Fl]. destruct (@by_value_ok t z v ct gt gv lv en) as [bv B].
    destruct (proj2 (union_succ cfg f) ov) as [s1 S1].
    destruct (IH F' s1 (after z fl ct bv acc) (succ_nonneg f S1)) as (s' & acc' & M & P & R).
    exists s', acc', (max N M). split; [easy|]. intros n L. cbn [app]. rewrite values_cons, Fl. cbn [gbind].
    rewrite C by lia. cbn [gbind]. rewrite B. cbn [gbind]. rewrite S1. cbn [gbind]. apply R. lia.
  Qed.
  Lemma label_pruns t q b s acc : good_label q -> good_type t -> switchable t -> 0 <= s -> label_panics cfg ds t q ->
    pruns (fun n => union_values cx n t s (q :: b) acc).
  Proof.
    intros g gt st Hs P. pose proof g as (gv & gd & f & V). destruct q as [[z d] v]. unfold key in *. cbn [fst snd] in *.
    assert (VV : label_ok v -> exists nm, convert_value_token KU32 true v = GOk nm) by (intros l; exact (label_value gv f V l)).
    destruct (fill_good z Hs) as [fl Fl].
    assert (E : ~ label_ok v \/ unnamed cfg ds t \/ (exists c, t = TsIdent c /\ refused cfg ds t /\ ~ camelable c) \/
       cond_ok cfg ds t /\ decl_unnamed cfg ds d \/
       label_ok v /\ cond_ok cfg ds t /\ expressible cfg ds d /\ (~ enum_name_ok ds t \/ overflow_checks cfg = true /\ z = 2 ^ 32 - 1)).
    { unfold label_panics in P. cbn [fst snd] in P.
      assert (D : label_ok v \/ ~ label_ok v) by (destruct v as [c|x]; [now left|apply camel_dec]).
      destruct D as [D|D]; [|now left]. destruct P as [P|[P|[P|[P|(P1 & P2 & P3)]]]]; [now left|tauto..|].
      do 4 right. split; [easy|]. split; [exact P1|]. split; [exact P2|exact P3]. }
    assert (E' : (~ label_ok v \/ unnamed cfg ds t \/ (exists c, t = TsIdent c /\ refused cfg ds t /\ ~ camelable c) \/
       cond_ok cfg ds t /\ decl_unnamed cfg ds d) \/
       label_ok v /\ cond_ok cfg ds t /\ expressible cfg ds d /\ (~ enum_name_ok ds t \/ overflow_checks cfg = true /\ z = 2 ^ 32 - 1)) by tauto.
    clear E P. destruct E' as [E|(lv & co & ex & E)].
    - destruct (case_pruns gd gt st VV E) as [N R]. exists N. intros n L. rewrite values_cons, Fl. cbn [gbind]. rewrite R by easy. easy.
    - destruct (@case_runs cfg ds G v d t) as (ct & N & C); try easy; [intros ->; easy| |].
      { intros c ->. exists z. destruct (@value_runs cfg ds G KU32 (VConst c) z gv V f) as [N R]. exact (R N ltac:(lia)). }
      exists N. intros n L. rewrite values_cons, Fl. cbn [gbind]. unfold cx at 1. rewrite C by easy. cbn [gbind].
      destruct (@by_value_total t z v ct gv lv) as [B|[bv B]]; rewrite B; cbn [gbind]; [easy|].
      destruct E as [E|E]; [exfalso; apply E; exact (by_value_needs B)|].
      apply (succ_panic f) in E. now rewrite E.
  Qed.
  (** and conversely *)
  Lemma values_panic n t l : good_type t -> switchable t -> Forall good_label l -> forall s acc, 0 <= s ->
    union_values cx n t s l acc = GPanic ->
    exists a q b, l = a ++ q :: b /\ Forall (label_fine cfg ds t) a /\ label_panics cfg ds t q.
  Proof.
    intros gt st. assert (vt : t <> TsVoid) by (intros ->; easy).
    induction l as [|[[z d] v] l IH]; intros g s acc Hs H; [discriminate|].
    inversion g as [|? ? (gv & gd & f & V) g']; subst. unfold key in *. cbn [fst snd] in *. rewrite values_cons in H.
    destruct (fill_good z Hs) as [fl Fl]. rewrite Fl in H. cbn [gbind] in H.
    apply gbind_panic in H as [H|(ct & C & H)].
    { exists [], (z, d, v), l. split; [easy|]. split; [constructor|]. unfold label_panics. cbn [fst snd].
      apply case_panic_inv in H; try easy. unfold switch_name_ok. unfold cond_ok in H. tauto. }
    destruct (case_needs G gd gt vt C) as (lv & co & ex).
    apply gbind_panic in H as [H|(bv & B & H)].
    { exists [], (z, d, v), l. split; [easy|]. split; [constructor|]. do 4 right. cbn [fst snd]. split; [exact co|]. split; [exact ex|].
      left. intros en. destruct (@by_value_ok t z v ct gt gv lv en) as [bv B]. congruence. }
    apply gbind_panic in H as [H|(s' & S' & H)].
    { exists [], (z, d, v), l. split; [easy|]. split; [constructor|]. do 4 right. cbn [fst snd]. split; [exact co|]. split; [exact ex|].
      right. now apply (succ_panic f). }
    destruct (IH g' _ _ (succ_nonneg f S') H) as (a & q & b & -> & Fa & P). exists ((z, d, v) :: a), q, b. split; [easy|].
    split; [|easy]. constructor; [|easy]. split; [easy|]. split; [exact co|]. split; [exact ex|]. split; [exact (by_value_needs B)|].
    cbn [fst snd]. apply (union_succ cfg f). eauto.
  Qed.
  Lemma values_fine n t l : good_type t -> switchable t -> Forall good_label l -> forall s acc p,
    union_values cx n t s l acc = GOk p -> Forall (label_fine cfg ds t) l /\ (up_default acc <> None \/ l <> [] -> up_default p <> None).
  Proof.
    intros gt st. assert (vt : t <> TsVoid) by (intros ->; easy).
    induction l as [|[[z d] v] l IH]; intros g s acc p H; [injection H as <-; split; [constructor|now intros [K|K]]|].
    inversion g as [|? ? (gv & gd & f & V) g']; subst. unfold key in *. cbn [fst snd] in *. rewrite values_cons in H.
    apply gbind_ok in H as (fl & _ & H). apply gbind_ok in H as (ct & C & H). apply gbind_ok in H as (bv & B & H).
    apply gbind_ok in H as (s' & S' & H). destruct (IH g' _ _ _ H) as [h1 h2]. destruct (case_needs G gd gt vt C) as (lv & co & ex).
    split.
    - constructor; [|easy]. split; [easy|]. split; [exact co|]. split; [exact ex|]. split; [exact (by_value_needs B)|].
      cbn [fst snd]. apply (union_succ cfg f). eauto.
    - intros _. apply h2. left. cbn. now destruct (up_default acc).
  Qed.

  (** what the labels resolve to *)
  Lemma arms_numbered n specs vals : Forall good_case specs -> arms cfg ds n specs = GOk vals -> numbered ds specs (concat vals).
  Proof.
    intros gs E. apply gmap_ok in E. unfold numbered. induction E as [|[vs d] qs specs vals h E IH]; [constructor|].
    inversion gs as [|? ? gcs gs']; subst. cbn in gcs. destruct gcs as (_ & gvs & gd). cbn [arms_of flat_map concat].
    apply Forall2_app; [|now apply IH]. apply gmap_ok in h. clear - h gvs G.
    induction h as [|v q vs qs h h' IH]; [constructor|]. inversion gvs as [|? ? gv gvs']; subst. constructor; [|now apply IH].
    apply gbind_ok in h as (z & R & [= <-]). destruct (number_found G gv R) as [V f]. cbn [fst snd]. cbn in f.
    split; [easy|]. split; [easy|]. split; [easy|lia].
  Qed.
  Lemma numbered_arms specs l : Forall good_case specs -> numbered ds specs l ->
    exists vals N, concat vals = l /\ forall n, (N <= n)%nat -> arms cfg ds n specs = GOk vals.
  Proof.
    intros gs. revert l. induction specs as [|[vs d] specs IH]; intros l H; unfold numbered in H; cbn [arms_of flat_map] in H.
    { inversion H; subst. now exists [], O. }
    inversion gs as [|? ? gcs gs']; subst. cbn in gcs. destruct gcs as (_ & gvs & gd).
    apply Forall2_app_inv_l in H as (l1 & l2 & H1 & H2 & ->). destruct (IH gs' l2 H2) as (vals & M & <- & R).
    assert (K : exists N, forall n, (N <= n)%nat -> gmap (fun v => gbind (resolve_value cx n KU32 v) (fun z => GOk (z, d, v))) vs = GOk l1).
    { clear - H1 gvs G. revert l1 H1. induction vs as [|v vs IH]; intros l1 H1; cbn [map] in H1; inversion H1 as [|? q ? qs (e1 & e2 & V & f) H1']; subst.
      - now exists O.
      - inversion gvs as [|? ? gv gvs']; subst. destruct (IH gvs' qs H1') as [M R]. destruct q as [[z d'] v']. cbn [fst snd] in *. subst d' v'.
        destruct (@value_runs cfg ds G KU32 v z gv V) as [N K]; [cbn; lia|]. exists (max N M). intros n L. cbn [gmap].
        unfold cx. rewrite K by lia. cbn [gbind]. fold cx. rewrite R by lia. easy. }
    destruct K as [N K]. exists (l1 :: vals), (max N M). split; [easy|]. intros n L. unfold arms. cbn [gmap]. fold cx.
    rewrite K by lia. cbn [gbind]. unfold arms in R. fold cx in R. rewrite R by lia. easy.
  Qed.
  Lemma numbered_good specs l : Forall good_case specs -> numbered ds specs l -> Forall good_label l.
  Proof.
    intros gs H. assert (A : Forall (fun p => good_decl (fst p) /\ good_value (snd p)) (arms_of specs)).
    { clear - gs. unfold arms_of. induction specs as [|[vs d] specs IH]; [constructor|]. inversion gs as [|? ? gcs gs']; subst.
      cbn in gcs. destruct gcs as (_ & gvs & gd). cbn [flat_map]. apply Forall_app. split; [|now apply IH].
      apply Forall_map. eapply Forall_impl; [|exact gvs]. easy. }
    unfold numbered in H. induction H as [|p q ps qs (e1 & e2 & V & f) H IH]; [constructor|].
    inversion A as [|? ? [a1 a2] A']; subst. constructor; [|now apply IH]. unfold good_label, key. rewrite e1, e2.
    split; [easy|]. split; [easy|]. split; [cbn; lia|]. now rewrite <- e2.
  Qed.
  Lemma arms_np n specs : arms cfg ds n specs <> GPanic.
  Proof.
    intros H. apply gmap_panic in H as (a & [vs d] & b & _ & H & _). apply gmap_panic in H as (a' & v & b' & _ & H & _).
    apply gbind_panic in H as [H|(z & _ & H)]; [|discriminate]. now apply resolve_value_result in H.
  Qed.

  (** the default arm *)
  Lemma default_pruns o p : default_panics cfg ds o -> pruns (fun n => union_default cx n o p).
  Proof. intros (d & -> & U). unfold union_default. apply pruns_fst. exact (decl_unnamed_runs U). Qed.
  Lemma default_panic_inv n o p : (forall d, o = Some d -> good_decl d) -> union_default cx n o p = GPanic -> default_panics cfg ds o.
  Proof.
    intros g H. unfold union_default in H. destruct o as [d|]; [|discriminate]. exists d. split; [easy|].
    apply gbind_panic in H as [H|(x & _ & H)]; [|discriminate]. exact (decl_unnamed_inv G (g d eq_refl) H).
  Qed.
  Lemma default_kept n o p q : union_default cx n o p = GOk q -> (o = None -> q = p) /\ (o <> None -> up_default q <> None).
  Proof.
    unfold union_default. destruct o as [d|]; intros H.
    - split; [easy|]. intros _. apply gbind_ok in H as (r & _ & [= <-]). easy.
    - injection H as <-. easy.
  Qed.

  (** bool *)
  Lemma bool_panic_inv n b specs acc : Forall good_case specs -> bool_case cx n TsBool b specs acc = GPanic ->
    exists d, arm_of (truth b) specs d /\ decl_unnamed cfg ds d.
  Proof.
    intros gs H. unfold bool_case in H. pose proof (find_arm b specs) as F. cbv zeta in H.
    destruct (find _ specs) as [[vs d]|].
    - destruct F as (I & Is & U). rewrite (find_truth I) in H. exists d. split; [now apply U|].
      rewrite Forall_forall in gs. destruct (gs _ Is) as (_ & gvs & gd). rewrite Forall_forall in gvs.
      apply gbind_panic in H as [H|(ct & _ & H)]; [|discriminate].
      apply case_panic_inv in H as [H|[H|[(c & H & _)|[_ H]]]]; try easy.
      + exfalso. apply H. now destruct b.
      + now apply gvs.
    - change (cx_config cx) with cfg in H. destruct (union_complement_index cfg); [|discriminate].
      unfold reserved_variant in H. rewrite reserved_ok in H by (destruct b; lia). discriminate.
  Qed.
  Lemma bool_pruns b specs acc d : Forall good_case specs -> arm_of (truth b) specs d -> decl_unnamed cfg ds d ->
    pruns (fun n => bool_case cx n TsBool b specs acc).
  Proof.
    intros gs A U. unfold bool_case. pose proof (find_arm b specs) as F. cbv zeta.
    destruct (find _ specs) as [[vs d']|].
    - destruct F as (I & Is & E). apply E in A. subst d'. rewrite (find_truth I). rewrite Forall_forall in gs.
      destruct (gs _ Is) as (_ & gvs & gd). apply pruns_fst. apply case_pruns; try easy.
      + intros _. destruct b; vm_compute; eauto.
      + do 3 right. split; [left; constructor; constructor|easy].
    - exfalso. apply F. exact (arm_label A).
  Qed.
  Lemma bool_default n b specs acc p : bool_case cx n TsBool b specs acc = GOk p ->
    up_default p = None <-> up_default acc = None /\ ~ In (truth b) (labels specs).
  Proof.
    intros H. unfold bool_case in H. pose proof (find_arm b specs) as F. cbv zeta in H.
    destruct (find _ specs) as [[vs d]|].
    - destruct F as (I & Is & U). rewrite (find_truth I) in H. apply gbind_ok in H as (ct & C & [= <-]). cbn.
      split; [destruct (up_default acc); discriminate|]. intros [_ K]. exfalso. apply K. apply arm_label with d. now apply U.
    - destruct (union_complement_index _).
      + apply gbind_ok in H as (r & _ & [= <-]). cbn. tauto.
      + injection H as <-. tauto.
  Qed.

  (** *** Unions *)
  Lemma union_pruns x y u : In (x, TdUnion y u) (type_defs ds) -> ~ camelable x \/ union_panics cfg ds u ->
    pruns (fun n => convert_union_token cx n x u).
  Proof.
    intros H U. destruct (good_types G H) as [gt nx].
    assert (gx : good_name x) by (cbn in nx; injection nx as <-; apply gt).
    destruct gt as (_ & gu). destruct u as [c specs dflt].
    cbn [good_union_body] in gu. destruct gu as (gc & ns & gs & gd). apply good_fold in gs. cbn [convert_union_token].
    destruct (camel_dec x) as [cx'|cx']; [|rewrite camel_panic by easy; now exists O].
    rewrite camel_ident by easy. cbn [gbind]. destruct U as [U|(t & z & -> & U)]; [easy|].
    destruct (good_mentions gc (eq_refl : mentions (DVariable t z) = Some t)) as [gt vt]. cbn [gbind].
    assert (V : switchable t -> (exists l, numbered ds specs l /\
          ((exists q, reached cfg ds t l q /\ label_panics cfg ds t q) \/
           Forall (label_fine cfg ds t) l /\ default_panics cfg ds dflt)) -> forall h : union_parts -> gres union_item,
      pruns (fun n => gbind (gbind (arms cfg ds n specs) (fun values =>
        union_values cx n t 0 (sort_by (fun p => fst (fst p)) (concat values)) no_parts)) (fun p => gbind (union_default cx n dflt p) h))).
    { intros st (l & Nl & P) h. destruct (numbered_arms gs Nl) as (vals & N & <- & R). pose proof (numbered_good gs Nl) as gl.
      change (fun p : Z * decl * value => fst (fst p)) with key.
      destruct P as [(q & (a & b & E & h1 & h2) & P)|[F P]].
      - apply pruns_fst. eapply pruns_snd; [exact R|]. rewrite E. destruct (sort_goes key a q b) as (A1 & B1 & S1 & K). rewrite S1.
        assert (gl' : Forall good_label (A1 ++ q :: B1)).
        { rewrite <- S1, <- E. apply Forall_forall. intros r Hr. apply sort_by_in in Hr. rewrite Forall_forall in gl. now apply gl. }
        apply Forall_app in gl' as [gA gq]. inversion gq as [|? ? gq' _]; subst.
        destruct (@values_app t A1 (q :: B1) gt st) with (s := 0) (acc := no_parts) as (s' & acc' & M & s0 & W); [|lia|].
        + apply Forall_forall. intros r Hr. rewrite Forall_forall in gA. split; [now apply gA|].
          destruct (K r Hr) as [[]|[]]; [now apply h1|now apply h2].
        + destruct (@label_pruns t q B1 s' acc' gq' gt st s0 P) as [M' W']. exists (max M M'). intros n L. rewrite W by lia. apply W'. lia.
      - assert (gl' : Forall (fun q => good_label q /\ label_fine cfg ds t q) (sort_by key (concat vals))).
        { apply Forall_forall. intros r Hr. apply sort_by_in in Hr. rewrite Forall_forall in gl, F. auto. }
        destruct (@values_app t (sort_by key (concat vals)) [] gt st gl') with (s := 0) (acc := no_parts) as (s' & acc' & M & s0 & W); [lia|].
        apply pruns_snd with (a := acc') (N := max N M).
        + intros n L. rewrite R by lia. cbn [gbind]. rewrite app_nil_r in W. rewrite W by lia. easy.
        + apply pruns_fst. now apply default_pruns. }
    destruct t; cbn [switch_panics] in U; try easy.
    - apply V; easy.
    - clear V. destruct U as [(d & A & P)|[[F (d & A & P)]|(F & T & P)]].
      + apply pruns_fst. apply pruns_fst. exact (@bool_pruns false specs no_parts d gs A P).
      + destruct (@bool_runs cfg ds G false specs no_parts gs F) as (p1 & N1 & R1 & _). apply pruns_fst.
        eapply pruns_snd; [exact R1|]. apply pruns_fst. exact (@bool_pruns true specs p1 d gs A P).
      + destruct (@bool_runs cfg ds G false specs no_parts gs F) as (p1 & N1 & R1 & _).
        destruct (@bool_runs cfg ds G true specs p1 gs T) as (p2 & N2 & R2 & _).
        eapply pruns_snd with (N := max N1 N2).
        * intros n L. unfold cx. rewrite R1 by lia. cbn [gbind]. rewrite R2 by lia. cbn [gbind]. reflexivity.
        * destruct P as [P|(-> & nT & nF)]; [apply pruns_fst; now apply default_pruns|].
          exists O. intros n _. cbn [union_default gbind]. cbv zeta. cbn [up_default].
          assert (e1 : up_default p1 = None) by (apply (bool_default (R1 N1 ltac:(lia))); easy).
          assert (e2 : up_default p2 = None) by (apply (bool_default (R2 N2 ltac:(lia))); easy).
          now rewrite e2.
    - apply V; easy.
  Qed.
  Lemma union_panics_inv n x y u : In (x, TdUnion y u) (type_defs ds) -> convert_union_token cx n x u = GPanic ->
    ~ camelable x \/ union_panics cfg ds u.
  Proof.
    intros H C. destruct (good_types G H) as [gt nx].
    assert (gx : good_name x) by (cbn in nx; injection nx as <-; apply gt).
    destruct gt as (_ & gu). destruct u as [c specs dflt].
    cbn [good_union_body] in gu. destruct gu as (gc & ns & gs & gd). apply good_fold in gs. cbn [convert_union_token] in C.
    apply gbind_panic in C as [C|(ni & _ & C)]; [left; now apply camel_not|right].
    apply gbind_panic in C as [C|(t & Et & C)]; [now destruct c|].
    assert (exists z, c = DVariable t z) as [z ->] by (destruct c; try discriminate; injection Et as <-; eauto). clear Et.
    destruct (good_mentions gc (eq_refl : mentions (DVariable t z) = Some t)) as [gt vt].
    exists t, z. split; [easy|].
    assert (gd' : forall d, dflt = Some d -> good_decl d) by (intros d ->; exact gd).
    assert (V : switchable t -> forall h : union_parts -> gres union_item,
      (forall p, h p = GPanic -> up_default p = None) ->
      gbind (gbind (arms cfg ds n specs) (fun values =>
        union_values cx n t 0 (sort_by (fun p => fst (fst p)) (concat values)) no_parts)) (fun p => gbind (union_default cx n dflt p) h) = GPanic ->
      exists l, numbered ds specs l /\
          ((exists q, reached cfg ds t l q /\ label_panics cfg ds t q) \/
           Forall (label_fine cfg ds t) l /\ default_panics cfg ds dflt)).
    { intros st h Hh E. change (fun p : Z * decl * value => fst (fst p)) with key in E.
      apply gbind_panic in E as [E|(p & Ep & E)].
      - apply gbind_panic in E as [E|(vals & Ea & E)]; [now apply arms_np in E|].
        pose proof (arms_numbered gs Ea) as Nl. pose proof (numbered_good gs Nl) as gl. exists (concat vals). split; [easy|left].
        apply values_panic in E as (A1 & q & B1 & S1 & F & P); try easy.
        + exists q. split; [|easy]. destruct (sort_from S1) as (a & b & Ec & h1 & h2). exists a, b. rewrite Forall_forall in F.
          split; [easy|]. split; intros r Hr L; apply F; [now apply h1|now apply h2].
        + apply Forall_forall. intros r Hr. apply sort_by_in in Hr. rewrite Forall_forall in gl. now apply gl.
      - apply gbind_ok in Ep as (vals & Ea & Ep).
        pose proof (arms_numbered gs Ea) as Nl. pose proof (numbered_good gs Nl) as gl. exists (concat vals). split; [easy|right].
        apply values_fine in Ep as [F D]; try easy.
        2:{ apply Forall_forall. intros r Hr. apply sort_by_in in Hr. rewrite Forall_forall in gl. now apply gl. }
        split; [apply Forall_forall; intros r Hr; rewrite Forall_forall in F; apply F; now apply sort_by_in|].
        apply gbind_panic in E as [E|(q & Eq & E)]; [exact (default_panic_inv gd' E)|].
        exfalso. apply Hh in E. destruct (default_kept Eq) as [K1 K2]. destruct dflt as [d|]; [now apply K2|].
        rewrite (K1 eq_refl) in E. apply D; [right|exact E]. intros e.
        assert (e' : concat vals = []) by (apply Permutation_nil; rewrite <- e; apply sort_by_perm).
        destruct (arms_needs G gs Ea) as (_ & _ & A3). destruct A3 as [r Hr]; [now destruct specs|]. now rewrite e' in Hr. }
    destruct t; cbn [switch_panics]; try (apply gbind_panic in C as [C|(? & C & _)]; discriminate).
    - eapply V; [easy| |exact C]. cbv beta zeta. intros p. now destruct (up_default p).
    - clear V. apply gbind_panic in C as [C|(p & Ep & C)].
      + apply gbind_panic in C as [C|(p1 & E1 & C)]; [left; exact (bool_panic_inv gs C)|right; left].
        apply gbind_panic in C as [C|(p2 & _ & C)]; [|discriminate].
        split; [exact (proj1 (bool_needs G gs E1))|exact (bool_panic_inv gs C)].
      + right. right. apply gbind_ok in Ep as (p1 & E1 & Ep). apply gbind_ok in Ep as (p2 & E2 & [= <-]).
        split; [exact (proj1 (bool_needs G gs E1))|]. split; [exact (proj1 (bool_needs G gs E2))|].
        apply gbind_panic in C as [C|(q & Eq & C)]; [left; exact (default_panic_inv gd' C)|right].
        cbv zeta in C. assert (D : up_default q = None) by (now destruct (up_default q)). clear C.
        destruct (default_kept Eq) as [K1 K2]. destruct dflt as [d|]; [exfalso; now apply K2|]. split; [easy|].
        rewrite (K1 eq_refl) in D. cbn [up_default] in D. apply (bool_default E2) in D as [D nT]. apply (bool_default E1) in D as [_ nF]. easy.
    - eapply V; [easy| |exact C]. cbv beta zeta. intros p. now destruct (up_default p).
  Qed.

  (** *** Files *)
  Lemma type_pruns p : In p (type_defs ds) -> type_panics cfg ds p -> pruns (fun n => type_token_of cx n p).
  Proof.
    intros I H. destruct p as [x t]. destruct t as [d|y m|y m|y u]; cbn [type_token_of].
    - unfold type_panics in H. cbn [fst snd] in H. destruct H as [r H]. change (cx_config cx) with cfg. rewrite r.
      destruct H as [H|(ex & no & nc)]; [apply pruns_fst; exact (decl_unnamed_runs H)|].
      destruct (good_types G I) as [gd nx]. destruct (expressible_runs G ex gd) as (o & N & R & v). eapply pruns_snd; [exact R|].
      destruct o as [[ty op]|]; [|exfalso; apply v; [intros ->; discriminate|easy]]. cbn [required gbind].
      assert (op = OpNone) as -> by (apply (@kept_opaque cfg ds N d ty op r); [apply R; lia|easy]).
      rewrite camel_panic by easy. now exists O.
    - apply pruns_fst. exact (enum_pruns G I H).
    - apply pruns_fst. exact (struct_pruns G I H).
    - apply pruns_fst. exact (union_pruns I H).
  Qed.
  Lemma type_panics_inv n p : In p (type_defs ds) -> type_token_of cx n p = GPanic -> type_panics cfg ds p.
  Proof.
    intros I H. destruct p as [x t]. destruct t as [d|y m|y m|y u]; cbn [type_token_of] in H.
    - unfold type_panics. cbn [fst snd]. change (cx_config cx) with cfg in H. destruct (remove_typedef cfg) eqn:r; [discriminate|].
      split; [easy|]. destruct (good_types G I) as [gd nx].
      apply gbind_panic in H as [H|(o & Ho & H)]; [left; exact (decl_unnamed_inv G gd H)|right].
      apply gbind_panic in H as [H|([ty op] & Hr & H)]; [now destruct o|].
      destruct o as [q|]; [|discriminate]. injection Hr as ->.
      assert (op = OpNone) by (destruct op; [easy|discriminate|discriminate]). subst op.
      split; [exact (expressible_inv G gd Ho)|]. split; [now apply (kept_opaque r Ho)|].
      apply gbind_panic in H as [H|(w & _ & H)]; [|discriminate]. apply camel_not; [exact (good_type_name gd nx)|easy].
    - apply gbind_panic in H as [H|(e & _ & H)]; [|discriminate]. exact (enum_panics_inv G I H).
    - apply gbind_panic in H as [H|(e & _ & H)]; [|discriminate]. exact (struct_panics_inv G I H).
    - apply gbind_panic in H as [H|(e & _ & H)]; [|discriminate]. exact (union_panics_inv I H).
  Qed.
End Unions.

Theorem panics_exact cfg ds : good_spec ds ->
  greturns (fun n => gen_code n cfg ds) GPanic <-> panics_on cfg ds.
Proof.
  intros G. split.
  - intros H. apply greturns_run in H as (n & H & _). rewrite gen_code_eq in H.
    apply gbind_panic in H as [H|(cs & Hc & H)].
    { apply gmap_panic in H as (a & [x v] & b & E & H & _). exfalso. cbn [constants ctx] in E.
      pose proof (good_consts G) as F. rewrite Forall_forall in F. destruct (F (x, v)) as [g1 g2]; [rewrite E; apply in_app_iff; right; now left|].
      cbn [fst snd] in g1, g2. cbn in H. rewrite plain_ident in H by easy. cbn [gbind] in H. destruct v as [c|y]; cbn [convert_value_token] in H.
      - destruct (constant_result KU32 c) as [[z K]|K]; rewrite K in H; cbn [gbind] in H; [discriminate|].
        destruct (constant_result KU64 c) as [[w K']|K']; rewrite K' in H; discriminate.
      - rewrite plain_ident in H by exact g2. discriminate. }
    split.
    + clear H. pose proof (good_consts G) as F. apply gmap_ok in Hc. cbn [constants ctx] in Hc.
      induction Hc as [|[x v] c l cs h Hc IH]; [constructor|]. inversion F as [|? ? [g1 g2] F']; subst.
      constructor; [|now apply IH]. apply (@const_size x v g1 g2). eauto.
    + apply gbind_panic in H as [H|(ts & _ & H)]; [|discriminate]. unfold types_token in H.
      apply gbind_panic in H as [H|(ls & _ & H)]; [|discriminate]. apply gmap_panic in H as (a & p & b & E & P & O).
      cbn [typedefs ctx] in E. exists a, p, b. split; [exact E|]. split.
      * apply Forall_forall. intros q Hq. destruct (O q Hq) as [c K].
        apply (@type_needs cfg ds G n q c); [|exact K]. rewrite E. apply in_app_iff. now left.
      * apply (@type_panics_inv cfg ds G n p); [|exact P]. rewrite E. apply in_app_iff. right. now left.
  - intros [Hc (a & p & b & E & Ha & P)].
    assert (C : exists cs, constants_token (ctx cfg ds) = GOk cs).
    { destruct (@runs_gmap _ _ (fun _ => constant_token) (const_defs ds)) as (cs & N & R); [|exists cs; exact (R N ltac:(lia))].
      intros [x v] I. pose proof (good_consts G) as F. rewrite Forall_forall in F, Hc. destruct (F _ I) as [g1 g2]. cbn [fst snd] in g1, g2.
      destruct (proj2 (@const_size x v g1 g2) (Hc _ I)) as [c K]. exact (runs_const K). }
    destruct C as [cs C]. split; [discriminate|].
    assert (R : pruns (fun n => gmap (type_token_of (ctx cfg ds) n) (type_defs ds))).
    { rewrite E. apply pruns_gmap.
      - intros q Hq. rewrite Forall_forall in Ha. apply type_runs; try easy; [|now apply Ha]. rewrite E. apply in_app_iff. now left.
      - apply type_pruns; try easy. rewrite E. apply in_app_iff. right. now left. }
    destruct R as [N R]. exists N. intros n L. rewrite gen_code_eq, C. cbn [gbind]. unfold types_token. cbn [typedefs ctx].
    rewrite R by easy. easy.
Qed.
Theorem tool_panics_exact fl checks t ds : greturns (fun n => parse n t) (GOk ds) ->
  greturns (fun n => rpcgen n fl checks t) GPanic <-> panics_on (main_config fl checks) ds.
Proof.
  intros P. rewrite <- (panics_exact (main_config fl checks) (c34 P)). destruct P as [_ [N P]]. split.
  - intros [_ [M H]]. split; [easy|]. exists (max N M). intros n L. specialize (H n ltac:(lia)).
    unfold rpcgen in H. rewrite P in H by lia. exact H.
  - intros [_ [M H]]. split; [easy|]. exists (max N M). intros n L.
    unfold rpcgen. rewrite P by lia. cbn [gbind]. apply H. lia.
Qed.

Theorem panics_apart cfg ds : good_spec ds -> translatable cfg ds -> ~ panics_on cfg ds.
Proof.
  intros G T P. apply (translated cfg G) in T as [f T]. apply (panics_exact cfg G) in P. discriminate (c41_one T P).
Qed.
Theorem error_rest cfg ds : good_spec ds -> well_founded_names ds ->
  (exists e, greturns (fun n => gen_code n cfg ds) (GErr e)) <-> ~ translatable cfg ds /\ ~ panics_on cfg ds.
Proof.
  intros G W. split.
  - intros [e E]. split; intros H.
    + apply (translated cfg G) in H as [f T]. discriminate (c41_one T E).
    + apply (panics_exact cfg G) in H. discriminate (c41_one H E).
  - intros [nT nP]. destruct (c41 cfg W) as [r R]. destruct r as [f|e| |].
    + exfalso. apply nT. apply (translated cfg G). eauto.
    + eauto.
    + exfalso. apply nP. now apply (panics_exact cfg G).
    + destruct R as [R _]. easy.
Qed.
