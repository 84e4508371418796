(** C115: exactly which interface files are translated, definition by definition. *)
From Verif Require Import Base RustTypes Nom NomFacts Keyword Ast ParserModel SpecGrammar SpecParse ParseSound ParserLemmas ConstProofs
  CaseModel SpecCase CaseProofs RustAst GenModel SpecGen SpecItems GenFacts GenTotal GenPanic GenLemmas WireBase
  SpecTranslate TranslateProofs.
From Coq Require Import Permutation.
Set Implicit Arguments.
Unset Strict Implicit.
Local Open Scope list_scope.

(** ** The numbers of an enum *)
Definition next (z : Z) : Z := if z <? 2 ^ 31 - 1 then z + 1 else - 2 ^ 31.
Fixpoint filled (s : Z) (zs : list Z) : Prop :=
  match zs with
  | [] => True
  | e :: zs => (forall z, s <= z < e -> 0 <= z) /\ filled (next e) zs
  end.
Definition no_gap (zs : list Z) : Prop :=
  (count_occ Z.eq_dec zs (2 ^ 31 - 1)%Z <= 1)%nat /\
  forall z w, In z zs -> In w zs -> z < w -> z + 1 < 0 -> In (z + 1) zs.

Lemma filled_gap zs : forall z0, ascending (fun z => z) (z0 :: zs) -> Forall (fun z => - 2 ^ 31 <= z < 2 ^ 31) (z0 :: zs) ->
  filled (next z0) zs <-> no_gap (z0 :: zs).
Proof.
  induction zs as [|z1 zs IH]; intros z0 A F.
  - split; [|easy]. intros _. split.
    + cbn [count_occ]. destruct (Z.eq_dec z0 (2 ^ 31 - 1)); lia.
    + intros z w [<-|[]] [<-|[]]; lia.
  - inversion A as [|? ? A0 A']; subst. inversion F as [|? ? F0 F']; subst.
    cbn [filled]. rewrite (IH z1) by easy.
    assert (L1 : z0 <= z1) by (apply A0; now left).
    inversion F' as [|? ? F1 _]; subst.
    unfold next. destruct (Z.ltb_spec z0 (2 ^ 31 - 1)) as [L|L].
    + split.
      * intros [H [C K]]. split; [cbn [count_occ] in *; destruct (Z.eq_dec z0 (2 ^ 31 - 1)); [lia|exact C]|].
        intros z w Hz Hw Lt Ng. destruct Hz as [<-|Hz].
        -- destruct (Z.eq_dec z1 z0) as [E|E].
           ++ right. rewrite <- E. destruct Hw as [<-|Hw]; [lia|]. apply K with w; try easy; [now left|lia|lia].
           ++ assert (z1 = z0 + 1 \/ z0 + 1 < z1) as [->|B] by lia; [right; now left|].
              exfalso. specialize (H (z0 + 1)). lia.
        -- destruct Hw as [<-|Hw]; [specialize (A0 z Hz); lia|]. right. now apply K with w.
      * intros [C K]. split; [|split].
        -- intros z Hz. destruct (Z_lt_ge_dec z 0) as [N|N]; [|lia]. exfalso.
           assert (I : In (z0 + 1) (z0 :: z1 :: zs)) by (apply K with z1; [now left|right; now left|lia|lia]).
           destruct I as [I|[I|I]]; [lia|lia|]. inversion A' as [|? ? A1 _]; subst. specialize (A1 _ I). lia.
        -- cbn [count_occ] in *. destruct (Z.eq_dec z0 (2 ^ 31 - 1)); [lia|exact C].
        -- intros z w Hz Hw Lt Ng. destruct (K z w) as [I|I]; try easy; [now right|now right|].
           specialize (A0 z Hz). lia.
    + assert (z0 = 2 ^ 31 - 1) by lia. assert (z1 = 2 ^ 31 - 1) by lia. subst. split.
      * intros [H _]. specialize (H (-1)). lia.
      * intros [C _]. exfalso. cbn [count_occ] in C. destruct (Z.eq_dec (2 ^ 31 - 1) (2 ^ 31 - 1)); [lia|easy].
Qed.
Lemma filled_start zs : ascending (fun z => z) zs -> Forall (fun z => - 2 ^ 31 <= z < 2 ^ 31) zs ->
  filled 0 zs <-> no_gap zs.
Proof.
  destruct zs as [|z zs]; intros A F.
  - cbn. split; [|easy]. intros _. split; [cbn; lia|easy].
  - rewrite <- filled_gap by easy. cbn [filled]. split; [now intros [_ H]|]. intros H. split; [intros; lia|easy].
Qed.
Lemma no_gap_perm zs ws : Permutation zs ws -> no_gap zs -> no_gap ws.
Proof.
  intros P [C K]. split.
  - replace (count_occ Z.eq_dec ws (2 ^ 31 - 1)) with (count_occ Z.eq_dec zs (2 ^ 31 - 1)); [easy|].
    now apply Permutation_count_occ.
  - intros z w Hz Hw. intros. eapply Permutation_in; [exact P|].
    apply K with w; try easy; (eapply Permutation_in; [symmetry; exact P|easy]).
Qed.
Lemma asc_map {A} (key : A -> Z) l : ascending key l -> ascending (fun z => z) (map key l).
Proof.
  induction 1 as [|a l H A' IH]; cbn; [constructor|]. constructor; [|easy].
  intros b Hb. apply in_map_iff in Hb as (c & <- & Hc). now apply H.
Qed.

Lemma reserved_neg z : z < 0 -> reserved z = GPanic.
Proof.
  intros H. unfold reserved, ident_new, to_decimal. destruct (Z.ltb_spec z 0); [|lia]. reflexivity.
Qed.
Lemma gmap_in {A B} (f : A -> gres B) l bs a : gmap f l = GOk bs -> In a l -> exists b, f a = GOk b.
Proof.
  intros H. apply gmap_ok in H. induction H as [|x b l bs h H IH]; [easy|]. intros [<-|I]; eauto.
Qed.

Scheme number_is_ind2 := Minimality for number_is Sort Prop with number_error_ind2 := Minimality for number_error Sort Prop.
Combined Scheme number_ind2 from number_is_ind2, number_error_ind2.

Section Gen.
  Variables (cfg : config) (ds : list definition).
  Let cx := ctx cfg ds.
  Hypothesis G : good_spec ds.

  (** *** Numbers *)
  Lemma number_goes k :
    (forall v z, number_is ds k v z -> good_value v -> exists N, forall n, (N <= n)%nat -> resolve_value cx n k v = GOk z) /\
    (forall v e, number_error ds k v e -> good_value v -> exists N, forall n, (N <= n)%nat -> resolve_value cx n k v = GErr e).
  Proof.
    pose proof (good_spec_values G) as GV. apply number_ind2.
    - intros c z S f g. exists O. intros n _. cbn. exact (constant_fits g S f).
    - intros x v z F V IH _. destruct (IH (first_good_const GV F)) as [N R]. exists (Datatypes.S N). intros [|n] L; [lia|].
      cbn [resolve_value]. unfold cx. rewrite resolve_name_S. apply assoc_first in F. fold cx. rewrite F, R by lia. easy.
    - intros x v z a F V IH _. destruct (IH (first_good_member GV F)) as [N R]. exists (Datatypes.S N). intros [|n] L; [lia|].
      cbn [resolve_value]. unfold cx. rewrite resolve_name_S. apply assoc_first in F. apply assoc_none in a. fold cx. rewrite a, F, R by lia. easy.
    - intros x c e v z C K IHc F V IH _. destruct (IHc (first_good_const GV C)) as [M Q]. destruct (IH (first_good_member GV F)) as [N R].
      exists (Datatypes.S (max M N)). intros [|n] L; [lia|].
      cbn [resolve_value]. unfold cx. rewrite resolve_name_S. apply assoc_first in F, C. fold cx. rewrite C, F, Q, R by lia. easy.
    - intros c z S f g. exists O. intros n _. cbn. exact (constant_overflows g S f).
    - intros x a b _. exists 1%nat. intros [|n] L; [lia|]. cbn [resolve_value]. unfold cx. rewrite resolve_name_S.
      apply assoc_none in a, b. now rewrite a, b.
    - intros x c e C K IHc b _. destruct (IHc (first_good_const GV C)) as [M Q]. exists (Datatypes.S M). intros [|n] L; [lia|].
      cbn [resolve_value]. unfold cx. rewrite resolve_name_S. apply assoc_first in C. apply assoc_none in b. fold cx. rewrite C, b, Q by lia. easy.
    - intros x v e a F V IH _. destruct (IH (first_good_member GV F)) as [N R]. exists (Datatypes.S N). intros [|n] L; [lia|].
      cbn [resolve_value]. unfold cx. rewrite resolve_name_S. apply assoc_first in F. apply assoc_none in a. fold cx. rewrite a, F, R by lia. easy.
    - intros x c e v e' C K IHc F V IH _. destruct (IHc (first_good_const GV C)) as [M Q]. destruct (IH (first_good_member GV F)) as [N R].
      exists (Datatypes.S (max M N)). intros [|n] L; [lia|].
      cbn [resolve_value]. unfold cx. rewrite resolve_name_S. apply assoc_first in F, C. fold cx. rewrite C, F, Q, R by lia. easy.
  Qed.
  Lemma number_came n k : forall v, good_value v ->
    (forall z, resolve_value cx n k v = GOk z -> number_is ds k v z) /\
    (forall e, resolve_value cx n k v = GErr e -> number_error ds k v e).
  Proof.
    pose proof (good_spec_values G) as GV.
    assert (C : forall c, good_constant c -> (forall z, constant_value k c = GOk z -> number_is ds k (VConst c) z) /\
      (forall e, constant_value k c = GErr e -> number_error ds k (VConst c) e)).
    { intros c gc. destruct (stands_total gc) as [w S].
      assert (D : fits k w \/ ~ fits k w) by (destruct k; cbn; lia). destruct D as [D|D].
      - rewrite (constant_fits gc S D). split; [intros z [= <-]; now constructor|discriminate].
      - rewrite (constant_overflows gc S D). split; [discriminate|]. intros e [= <-]. exact (ne_number _ _ _ _ S D). }
    induction n as [|n IH]; intros [c|x] gv; [now apply C|easy|now apply C|].
    cbn [resolve_value]. unfold cx. rewrite resolve_name_S. fold cx.
    destruct (assoc String.eqb x (const_defs ds)) as [c|] eqn:a.
    - apply assoc_first in a. destruct (IH c (first_good_const GV a)) as [Ic Ec].
      destruct (resolve_value cx n k c) as [w|e'| |] eqn:r; [split; [|discriminate]; intros z [= <-]; exact (ni_const _ _ _ _ _ a (Ic _ eq_refl))| |easy|easy].
      specialize (Ec _ eq_refl). destruct (assoc String.eqb x (member_defs ds)) as [v|] eqn:b.
      + apply assoc_first in b. destruct (IH v (first_good_member GV b)) as [Iv Ev]. split; intros u E.
        * exact (ni_again _ _ _ _ _ _ _ a Ec b (Iv _ E)).
        * exact (ne_again _ _ _ _ _ _ _ a Ec b (Ev _ E)).
      + split; [discriminate|]. intros e [= <-]. apply assoc_none in b. exact (ne_const _ _ _ _ _ a Ec b).
    - apply assoc_none in a. destruct (assoc String.eqb x (member_defs ds)) as [v|] eqn:b.
      + apply assoc_first in b. destruct (IH v (first_good_member GV b)) as [Iv Ev]. split; intros u E.
        * exact (ni_member _ _ _ _ _ a b (Iv _ E)).
        * exact (ne_member _ _ _ _ _ a b (Ev _ E)).
      + split; [discriminate|]. intros e [= <-]. apply assoc_none in b. now constructor.
  Qed.
  Lemma value_runs k v z : good_value v -> number_is ds k v z -> fits k z ->
    exists N, forall n, (N <= n)%nat -> resolve_value cx n k v = GOk z.
  Proof. intros g V _. exact (proj1 (number_goes k) v z V g). Qed.
  Lemma number_fits k v z : number_is ds k v z -> fits k z.
  Proof. now induction 1. Qed.
  Lemma number_found n k v z : good_value v -> resolve_value cx n k v = GOk z -> number_is ds k v z /\ fits k z.
  Proof. intros g R. apply (number_came n k g) in R. split; [exact R|exact (number_fits R)]. Qed.
  Lemma number_fun k v z w : good_value v -> number_is ds k v z -> number_is ds k v w -> z = w.
  Proof.
    intros g V W. destruct (proj1 (number_goes k) v z V g) as [N R], (proj1 (number_goes k) v w W g) as [M Q].
    specialize (R (max N M) ltac:(lia)). specialize (Q (max N M) ltac:(lia)). congruence.
  Qed.

  (** *** Constants *)
  Lemma const_size x v : good_name x -> good_value v ->
    (exists c, constant_token (x, v) = GOk c) <-> size_ok v.
  Proof.
    intros gx gv. cbn. rewrite plain_ident by easy. cbn [gbind]. destruct v as [k|y].
    - cbn [convert_value_token]. destruct (stands_total gv) as [z S].
      assert (D : fits KU32 z \/ ~ fits KU32 z) by (cbn; lia). destruct D as [D|D].
      + rewrite (constant_fits gv S D). cbn. split; [|eauto]. intros _. exists z. cbn in D. split; [easy|lia].
      + rewrite (constant_overflows gv S D). cbn [gbind].
        assert (D' : fits KU64 z \/ ~ fits KU64 z) by (cbn; lia). destruct D' as [D'|D'].
        * rewrite (constant_fits gv S D'). cbn. split; [|eauto]. intros _. exists z. cbn in D'. split; [easy|lia].
        * rewrite (constant_overflows gv S D'). split; [now intros []|]. cbn. intros (w & S' & L).
          rewrite (ConstProofs.stands_fun S' S) in L. exfalso. apply D'. cbn. lia.
    - cbn [convert_value_token size_ok]. rewrite plain_ident by exact gv. cbn. split; [easy|eauto].
  Qed.

  (** *** Enums *)
  Lemma enum_values_ok l : forall s, Forall (fun p => fits KI32 (fst p) /\ good_name (snd p)) l ->
    (exists vs, enum_values cx s l = GOk vs) <->
    Forall (fun p => camelable (snd p)) l /\
    (overflow_checks cfg = true -> ~ In (2 ^ 31 - 1) (map fst l)) /\
    (enum_complement_index cfg = true -> filled s (map fst l)).
  Proof.
    induction l as [|[e x] l IH]; intros s F.
    { cbn. split; [intros _; repeat split; try constructor; easy|eauto]. }
    inversion F as [|? ? [fi g] F']; subst. cbn [fst snd fits] in fi, g. cbn [enum_values map fst].
    change (cx_config cx) with cfg.
    assert (Fill : (exists fl, (if enum_complement_index cfg
                   then gmap (fun z => gbind (reserved z) (fun r => GOk (r, z))) (zrange s e) else GOk []) = GOk fl) <->
      (enum_complement_index cfg = true -> forall z, s <= z < e -> 0 <= z)).
    { destruct (enum_complement_index cfg); [|split; [easy|eauto]]. split.
      - intros [fl E] _ z Hz. apply zrange_in in Hz. destruct (gmap_in E Hz) as [b B].
        destruct (Z_lt_ge_dec z 0) as [N|N]; [|lia]. rewrite reserved_neg in B by easy. discriminate.
      - intros H. specialize (H eq_refl). eexists. apply gmap_map with (g := fun z => (reserved_name z, z)).
        intros z Hz. apply zrange_in in Hz. rewrite reserved_ok by now apply H. easy. }
    assert (Succ : (exists s', succ_checked (overflow_checks cfg) true e = GOk s') <-> (overflow_checks cfg = true -> e <> 2 ^ 31 - 1)).
    { unfold succ_checked. destruct (Z.ltb_spec e (2 ^ 31 - 1)); [split; [intros _ _; lia|eauto]|].
      destruct (overflow_checks cfg); [|split; [easy|eauto]]. split; [now intros []|]. intros H'. specialize (H' eq_refl). lia. }
    assert (Next : forall s', succ_checked (overflow_checks cfg) true e = GOk s' -> s' = next e).
    { unfold succ_checked, next. intros s'. destruct (e <? 2 ^ 31 - 1); [congruence|].
      destruct (overflow_checks cfg); [discriminate|]. congruence. }
    split.
    - intros [vs H]. apply gbind_ok in H as (fl & E & H). apply gbind_ok in H as (it & Ei & H).
      apply gbind_ok in H as (s' & Es & H). apply gbind_ok in H as (vs' & Ev & _).
      destruct (proj1 (IH s' F') (ex_intro _ _ Ev)) as (h1 & h2 & h3). rewrite (Next _ Es) in h3.
      split; [constructor; [now apply camel_needs with it|easy]|]. split.
      + intros c [I|I]; [|now apply h2]. assert (K : e <> 2 ^ 31 - 1) by (apply Succ; eauto). now apply K.
      + intros c. cbn [filled]. split; [|now apply h3]. apply Fill; eauto.
    - intros (h1 & h2 & h3). inversion h1 as [|? ? c1 h1']; subst. cbn [snd] in c1.
      destruct (proj2 Fill) as [fl E]; [intros c; now apply h3|]. rewrite E. cbn [gbind].
      rewrite camel_ident by easy. cbn [gbind].
      destruct (proj2 Succ) as [s' Es]; [intros c I; apply (h2 c); now left|]. rewrite Es. cbn [gbind].
      destruct (proj2 (IH s' F')) as [vs Ev].
      { rewrite (Next _ Es). split; [easy|]. split; [intros c I; apply (h2 c); now right|].
        intros c. now apply h3. }
      rewrite Ev. cbn. eauto.
  Qed.

  Lemma enum_numbers (ix : list (Z * string)) : Forall (fun p => fits KI32 (fst p) /\ good_name (snd p)) ix ->
    (exists vs, enum_values cx 0 (sort_by fst ix) = GOk vs) <->
    Forall (fun p => camelable (snd p)) ix /\ numbers_for_enum cfg (map fst ix).
  Proof.
    intros F. assert (P : Permutation (sort_by fst ix) ix) by apply sort_by_perm.
    assert (F' : Forall (fun p => fits KI32 (fst p) /\ good_name (snd p)) (sort_by fst ix))
      by (eapply Permutation_Forall; [symmetry; exact P|easy]).
    rewrite (enum_values_ok 0 F').
    assert (PM : Permutation (map fst (sort_by fst ix)) (map fst ix)) by now apply Permutation_map.
    assert (Rng : forall l : list (Z * string), Forall (fun p => fits KI32 (fst p) /\ good_name (snd p)) l ->
      Forall (fun z => - 2 ^ 31 <= z < 2 ^ 31) (map fst l)).
    { intros l K. apply Forall_map. eapply Forall_impl; [|exact K]. cbn. intros [z x] [h _]. cbn in *. lia. }
    assert (NG : filled 0 (map fst (sort_by fst ix)) <-> no_gap (map fst ix)).
    { rewrite filled_start; [|apply asc_map, sort_by_asc|now apply Rng].
      split; apply no_gap_perm; [easy|now symmetry]. }
    rewrite NG. unfold numbers_for_enum. fold (no_gap (map fst ix)).
    assert (C : Forall (fun p : Z * string => camelable (snd p)) (sort_by fst ix) <-> Forall (fun p => camelable (snd p)) ix).
    { split; apply Permutation_Forall; [easy|now symmetry]. }
    rewrite C.
    assert (I : In (2 ^ 31 - 1) (map fst (sort_by fst ix)) <-> In (2 ^ 31 - 1) (map fst ix)).
    { split; apply Permutation_in; [easy|now symmetry]. }
    rewrite I. pose proof (Rng ix F). tauto.
  Qed.

  Lemma enum_needs n x y l e : In (x, TdEnum y l) (type_defs ds) -> convert_enum_token cx n x l = GOk e ->
    camelable x /\ enum_ok cfg ds l.
  Proof.
    intros H C. destruct (good_types G H) as [gt nx]. cbn in gt. destruct gt as (_ & _ & gl).
    unfold convert_enum_token in C. apply gbind_ok in C as (ix & E & C). apply gbind_ok in C as (ni & Ni & C).
    apply gbind_ok in C as (vs & Ev & _). split; [now apply camel_needs with ni|]. apply gmap_ok in E.
    assert (A : Forall2 (fun a z => number_is ds KI32 (as_value a) z) l (map fst ix) /\
      Forall (fun p => fits KI32 (fst p) /\ good_name (snd p)) ix /\ map as_name l = map snd ix).
    { clear - E gl G. induction E as [|a p l ix h E IH]; [cbn; repeat split; constructor|].
      inversion gl as [|? ? [ga gv] gl']; subst. destruct (IH gl') as (h1 & h2 & h3).
      apply gbind_ok in h as (z & R & [= <-]). destruct (number_found gv R) as [V Fz]. cbn [map fst snd].
      split; [now constructor|]. split; [now constructor|]. now rewrite h3. }
    destruct A as (A1 & A2 & A3). destruct (proj1 (enum_numbers A2) (ex_intro _ _ Ev)) as [B1 B2].
    split; [|now exists (map fst ix)]. apply Forall_map. rewrite A3. now apply Forall_map.
  Qed.
  Lemma enum_runs x y l : In (x, TdEnum y l) (type_defs ds) -> camelable x -> enum_ok cfg ds l ->
    runs (fun n => convert_enum_token cx n x l).
  Proof.
    intros H c [cl (zs & V & K)]. destruct (good_types G H) as [gt nx]. cbn in gt.
    assert (gx : good_name x) by (cbn in nx; injection nx as <-; apply gt).
    destruct gt as (_ & ne & gl).
    assert (R : exists N, forall n, (N <= n)%nat ->
      gmap (fun a => gbind (resolve_value cx n KI32 (as_value a)) (fun z => GOk (z, as_name a))) l = GOk (combine zs (map as_name l))).
    { destruct K as [K _]. clear - V K gl G. induction V as [|a z l zs h V IH]; [now exists O|].
      inversion gl as [|? ? [ga gv] gl']; inversion K as [|? ? k K']; subst. destruct (IH K' gl') as [M HM].
      destruct (@value_runs KI32 _ z gv h) as [N HN]; [cbn; lia|]. exists (max N M). intros n L. cbn.
      rewrite HN by lia. cbn. rewrite HM by lia. easy. }
    destruct R as [N R]. set (ix := combine zs (map as_name l)) in *.
    assert (A : Forall (fun p => fits KI32 (fst p) /\ good_name (snd p)) ix /\ map fst ix = zs /\
      Forall (fun p => camelable (snd p)) ix /\ (l <> [] -> ix <> [])).
    { destruct K as [K _]. clear - V K gl cl. subst ix. induction V as [|a z l zs h V IH]; [cbn; split; [constructor|]; split; [easy|]; split; [constructor|easy]|].
      inversion gl as [|? ? [ga gv] gl']; inversion K as [|? ? k K']; inversion cl as [|? ? ca cl']; subst.
      destruct (IH cl' K' gl') as (h1 & h2 & h3 & _). cbn [combine map fst snd].
      split; [constructor; [split; [cbn; lia|easy]|easy]|]. split; [now rewrite h2|]. split; [now constructor|easy]. }
    destruct A as (A1 & A2 & A3 & A4).
    destruct (proj2 (enum_numbers A1)) as [vs Ev]; [now rewrite A2|].
    unfold convert_enum_token. eapply runs_bind; [exact R|]. cbv zeta.
    rewrite camel_ident by easy. cbn [gbind]. rewrite Ev. cbn [gbind].
    rewrite (@gmap_map _ _ _ (fun p => (camel (snd p), fst p))).
    - destruct (sort_by fst ix) as [|p q] eqn:e.
      + exfalso. apply A4; [now destruct l|]. apply Permutation_nil. rewrite <- e. apply sort_by_perm.
      + cbn. eapply runs_const. reflexivity.
    - intros p Hp. apply sort_by_in in Hp. rewrite Forall_forall in A1, A3.
      rewrite camel_ident; [easy|now apply A1|now apply A3].
  Qed.

  (** *** Structs *)
  Lemma raw_needs x i : snake_case_ident (if rust_reserved x then "r#" ++ x else x)%string = GOk i -> ~ In x unusable.
  Proof.
    intros H [<-|[<-|[<-|[<-|[]]]]]; vm_compute in H; discriminate.
  Qed.
  Lemma struct_needs n x y l s : In (x, TdStruct y l) (type_defs ds) -> convert_struct_token cx n x l = GOk s ->
    camelable x /\ Forall (member_ok cfg ds) l.
  Proof.
    intros H C. destruct (good_types G H) as [gt nx]. cbn in gt. destruct gt as (_ & _ & gl).
    unfold convert_struct_token in C. apply gbind_ok in C as (fs & E & C). apply gbind_ok in C as (ni & Ni & _).
    split; [now apply camel_needs with ni|]. apply Forall_forall. intros d Hd. rewrite Forall_forall in gl.
    destruct (gmap_in E Hd) as [f F]. unfold struct_field in F. destruct (decl_name d) as [z|] eqn:e; [|discriminate].
    apply gbind_ok in F as (o & To & F). apply gbind_ok in F as ([ty op] & _ & F). cbv zeta in F.
    apply gbind_ok in F as (i & Fi & _). split; [exact (expressible_inv G (gl d Hd) To)|].
    exists z. split; [rewrite <- e; now destruct d|]. exact (raw_needs Fi).
  Qed.
  Lemma struct_runs x y l : In (x, TdStruct y l) (type_defs ds) -> camelable x -> Forall (member_ok cfg ds) l ->
    runs (fun n => convert_struct_token cx n x l).
  Proof.
    intros H c M. destruct (good_types G H) as [gt nx]. cbn in gt.
    assert (gx : good_name x) by (cbn in nx; injection nx as <-; apply gt).
    destruct gt as (_ & _ & gl). rewrite Forall_forall in gl, M.
    unfold convert_struct_token. destruct (@runs_gmap _ _ (fun n => struct_field cx n x) l) as (fs & N & R).
    - intros d Hd. destruct (M d Hd) as [ex (z & Dz & Nz)]. specialize (gl d Hd).
      destruct (expressible_runs G ex gl) as (o & N & T & no). unfold struct_field.
      replace (decl_name d) with (Some z) by (rewrite <- Dz; now destruct d).
      eapply runs_bind; [exact T|]. destruct o as [[ty op]|]; [|exfalso; apply no; [|easy]; intros ->; discriminate].
      cbn [required gbind]. cbv zeta. assert (gz : good_name z) by exact (good_declared gl Dz).
      rewrite (field_name_ok gz Nz). eapply runs_const. reflexivity.
    - eapply runs_bind; [exact R|]. rewrite camel_ident by easy. eapply runs_const. reflexivity.
  Qed.
End Gen.

(** where no name is both a constant and an enum member, the numbers are those of [value_is] *)
Lemma value_number ds k v z : value_is ds v z -> fits k z -> number_is ds k v z.
Proof.
  induction 1 as [c z S|x v z F V IH|x v z a F V IH]; intros f.
  - now constructor.
  - exact (ni_const _ _ _ _ _ F (IH f)).
  - exact (ni_member _ _ _ _ _ a F (IH f)).
Qed.
Lemma number_value ds k v z : one_scope ds -> number_is ds k v z -> value_is ds v z /\ fits k z.
Proof.
  intros sc. induction 1 as [c z S f|x v z F V [IH f]|x v z a F V [IH f]|x c e v z C K F V [IH f]]; (split; [|exact f]).
  - now constructor.
  - exact (vi_const _ _ _ _ F IH).
  - exact (vi_member _ _ _ _ a F IH).
  - exfalso. apply first_in in C, F. apply (sc x); [change x with (fst (x, c))|change x with (fst (x, v))]; now apply in_map.
Qed.
Lemma number_scope ds k v z : one_scope ds -> number_is ds k v z <-> value_is ds v z /\ fits k z.
Proof. intros sc. split; [now apply number_value|]. intros [V f]. now apply value_number. Qed.

(** C40: exactly what a value gives *)
Lemma number_exact cfg ds cs ts k v : setup_context ds = (cs, ts) -> good_spec ds -> good_value v ->
  (forall z, greturns (fun n => resolve_value (Context cfg cs ts) n k v) (GOk z) <-> number_is ds k v z) /\
  (forall e, greturns (fun n => resolve_value (Context cfg cs ts) n k v) (GErr e) <-> number_error ds k v e).
Proof.
  rewrite setup_spec. intros [= <- <-] G gv. fold (ctx cfg ds). split; intros u; split.
  - intros H. apply greturns_run in H as (n & H & _). exact (proj1 (@number_came cfg ds G n k v gv) u H).
  - intros V. split; [discriminate|]. exact (proj1 (number_goes cfg G k) v u V gv).
  - intros H. apply greturns_run in H as (n & H & _). exact (proj2 (@number_came cfg ds G n k v gv) u H).
  - intros V. split; [discriminate|]. exact (proj2 (number_goes cfg G k) v u V gv).
Qed.
