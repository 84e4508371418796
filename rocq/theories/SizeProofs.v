(** C111: the size of the generated code. *)
From Verif Require Import Base RustTypes Nom NomFacts Keyword Ast ParserModel SpecGrammar SpecParse ConstProofs
  CaseModel RustAst GenModel SpecGen GenFacts GenPanic EmitNorm SpecCodeSize.
Set Implicit Arguments.
Unset Strict Implicit.
Local Open Scope list_scope.
Local Open Scope Z_scope.

Lemma zlen_map {A B} (f : A -> B) l : zlen (map f l) = zlen l.
Proof. unfold zlen. now rewrite map_length. Qed.

Lemma Forall2_len {A B} (R : A -> B -> Prop) a b : Forall2 R a b -> length a = length b.
Proof. induction 1; cbn; auto. Qed.
Lemma gmap_zlen {A B} (f : A -> gres B) l bs : gmap f l = GOk bs -> zlen bs = zlen l.
Proof. intros H. apply gmap_ok in H. unfold zlen. now rewrite <- (Forall2_len H). Qed.
Lemma insert_zlen {A} (key : A -> Z) a l : zlen (insert_by key a l) = 1 + zlen l.
Proof.
  induction l as [|b l IH]; [easy|]. cbn [insert_by]. destruct (key a <=? key b); rewrite !zlen_cons; [easy|]. rewrite IH. lia.
Qed.
Lemma sort_zlen {A} (key : A -> Z) l : zlen (sort_by key l) = zlen l.
Proof. induction l as [|a l IH]; [easy|]. cbn [sort_by fold_right]. fold (sort_by key l). now rewrite insert_zlen, IH, zlen_cons. Qed.
Lemma zrange_zlen a b : zlen (zrange a b) = Z.max 0 (b - a).
Proof. unfold zrange, zlen. rewrite map_length, seq_length. lia. Qed.
Lemma insert_in {A} (key : A -> Z) a l x : In x (insert_by key a l) -> x = a \/ In x l.
Proof.
  induction l as [|b l IH]; cbn [insert_by]; [intros [->|[]]; auto|].
  destruct (key a <=? key b); intros [->|H]; cbn; auto. destruct (IH H); auto.
Qed.
Lemma sort_in {A} (key : A -> Z) l x : In x (sort_by key l) -> In x l.
Proof.
  induction l as [|a l IH]; [easy|]. cbn [sort_by fold_right]. fold (sort_by key l). intros H.
  apply insert_in in H as [->|H]; cbn; auto.
Qed.

Lemma succ_low (c s : bool) (z z' lo hi : Z) : (hi = (if s then 2 ^ 31 - 1 else 2 ^ 32 - 1)) -> (lo = (if s then - 2 ^ 31 else 0)) ->
  lo <= z -> succ_checked c s z = GOk z' -> lo <= z'.
Proof.
  intros H L B. unfold succ_checked. rewrite <- H, <- L. destruct (z <? hi); [intros [= <-]; lia|].
  destruct c; [discriminate|]. intros [= <-]. lia.
Qed.

(** how much a definition may grow: not at all with flags, and up to the range of the
    numbers without *)
Definition growth (b : bool) : Z := if b then 2 ^ 32 else 1.

Section Size.
  Variables (cfg : config) (ds : list definition) (n : nat).
  Let cx := ctx cfg ds.

  Lemma enum_values_zlen l : (forall p, In p l -> - 2 ^ 31 <= fst p < 2 ^ 31) -> forall s vs, - 2 ^ 31 <= s ->
    enum_values cx s l = GOk vs -> zlen vs <= growth (enum_complement_index cfg) * zlen l.
  Proof.
    induction l as [|[e x] l IH]; intros R s vs B H; cbn [enum_values] in H; [injection H as <-; unfold growth; destruct (enum_complement_index cfg); easy|].
    apply gbind_ok in H as (fill & F & H). apply gbind_ok in H as (it & _ & H). apply gbind_ok in H as (s' & S & H).
    apply gbind_ok in H as (vs' & V & H). injection H as <-.
    pose proof (R (e, x) ltac:(now left)) as Re. cbn [fst] in Re.
    assert (R' : forall p, In p l -> - 2 ^ 31 <= fst p < 2 ^ 31) by (intros p P; apply R; now right).
    pose proof (IH R' s' vs' (@succ_low _ true _ _ (- 2 ^ 31) _ eq_refl eq_refl (proj1 Re) S) V) as I.
    rewrite zlen_app, !zlen_cons. change (cx_config cx) with cfg in F.
    unfold growth in *. destruct (enum_complement_index cfg).
    - apply gmap_zlen in F. rewrite F, zrange_zlen. lia.
    - injection F as <-. change (zlen (@nil (string * Z))) with 0. lia.
  Qed.

  Lemma union_values_zlen cond l : (forall p, In p l -> 0 <= fst (fst p) < 2 ^ 32) -> forall s acc r, 0 <= s ->
    union_values cx n cond s l acc = GOk r ->
    zlen (up_specs r) <= zlen (up_specs acc) + growth (union_complement_index cfg) * zlen l.
  Proof.
    induction l as [|[[e d] v] l IH]; intros R s acc r B H; cbn [union_values] in H;
      [injection H as <-; unfold growth; destruct (union_complement_index cfg); change (zlen (@nil (Z * decl * value))) with 0; lia|].
    apply gbind_ok in H as (fill & F & H). apply gbind_ok in H as (ct & _ & H). apply gbind_ok in H as (bv & _ & H).
    apply gbind_ok in H as (s' & S & H).
    pose proof (R (e, d, v) ltac:(now left)) as Re. cbn [fst] in Re.
    assert (R' : forall p, In p l -> 0 <= fst (fst p) < 2 ^ 32) by (intros p P; apply R; now right).
    pose proof (IH R' s' _ r (@succ_low _ false _ _ 0 _ eq_refl eq_refl (proj1 Re) S) H) as I. cbn [up_specs] in I.
    rewrite !zlen_app, !zlen_cons in I. rewrite zlen_cons. change (zlen (@nil variant)) with 0 in I. change (cx_config cx) with cfg in F.
    unfold growth in *. destruct (union_complement_index cfg).
    - apply gmap_zlen in F. rewrite F, zrange_zlen in I. lia.
    - injection F as <-. change (zlen (@nil variant)) with 0 in I. lia.
  Qed.

  Lemma enum_zlen x l e : convert_enum_token cx n x l = GOk e ->
    zlen (en_values e) <= growth (enum_complement_index cfg) * zlen l.
  Proof.
    unfold convert_enum_token. intros H. apply gbind_ok in H as (ix & X & H). cbv zeta in H.
    apply gbind_ok in H as (nm & _ & H). apply gbind_ok in H as (vs & V & H). apply gbind_ok in H as (its & _ & H).
    destruct its as [|[dn dv] its]; [discriminate|]. injection H as <-. cbn [en_values].
    apply enum_values_zlen in V.
    - rewrite sort_zlen in V. now rewrite (gmap_zlen X) in V.
    - intros p P. apply sort_in in P. apply gmap_ok in X. clear - P X. induction X as [|a b l' ix' Ha X IH]; [easy|].
      destruct P as [->|P]; [|now apply IH]. apply gbind_ok in Ha as (z & Z & [= <-]). apply value_range in Z. cbn in *. lia.
    - lia.
  Qed.

  Lemma cases_zlen specs vals :
    gmap (fun s => match s with CaseSpec vs d => gmap (fun v => z <~ resolve_value cx n KU32 v;; GOk (z, d, v)) vs end) specs = GOk vals ->
    zlen (concat vals) = zlen (flat_map (fun s => match s with CaseSpec vs _ => vs end) specs) /\
    forall p, In p (concat vals) -> 0 <= fst (fst p) < 2 ^ 32.
  Proof.
    intros H. apply gmap_ok in H. induction H as [|[vs d] b specs vals H _ [IH1 IH2]]; [split; [easy|]; intros p []|].
    cbn [concat flat_map]. rewrite !zlen_app, IH1, (gmap_zlen H). split; [easy|].
    intros p P. apply in_app_or in P as [P|P]; [|now apply IH2]. apply gmap_ok in H. clear - P H.
    induction H as [|v q vs b Hv H IH]; [easy|]. destruct P as [->|P]; [|now apply IH].
    apply gbind_ok in Hv as (z & Z & [= <-]). apply value_range in Z. cbn in *. lia.
  Qed.

  Lemma bool_zlen cond b specs acc r : bool_case cx n cond b specs acc = GOk r ->
    zlen (up_specs r) <= zlen (up_specs acc) +
      (if union_complement_index cfg then 1
       else zlen (filter (if b then is_true else is_false) (flat_map (fun s => match s with CaseSpec vs _ => vs end) specs))).
  Proof.
    unfold bool_case. set (test := if b then is_true else is_false). intros H.
    destruct (find _ specs) as [[vs d]|] eqn:F.
    - destruct (find test vs) as [v|] eqn:T; [|discriminate].
      apply gbind_ok in H as (ct & _ & [= <-]). cbn [up_specs]. rewrite zlen_app. change (zlen [ct_variant ct]) with 1.
      destruct (union_complement_index cfg); [lia|]. apply find_some in F as [F _]. apply find_some in T as [T1 T2].
      assert (I : In v (filter test (flat_map (fun s => match s with CaseSpec vs _ => vs end) specs))).
      { apply filter_In. split; [|exact T2]. apply in_flat_map. exists (CaseSpec vs d). auto. }
      destruct (filter test _); [easy|]. rewrite zlen_cons. pose proof (zlen_nonneg l). lia.
    - change (cx_config cx) with cfg in H. destruct (union_complement_index cfg).
      + apply gbind_ok in H as (rv & _ & [= <-]). cbn [up_specs]. rewrite zlen_app. change (zlen [rv]) with 1. lia.
      + injection H as <-. pose proof (zlen_nonneg (filter test (flat_map (fun s => match s with CaseSpec vs _ => vs end) specs))). lia.
  Qed.
  Lemma true_false l : zlen (filter is_false l) + zlen (filter is_true l) <= zlen l.
  Proof.
    induction l as [|v l IH]; [easy|]. cbn [filter]. rewrite zlen_cons.
    destruct (is_false v) eqn:F, (is_true v) eqn:T; rewrite ?zlen_cons; try lia.
    exfalso. revert F T. unfold is_false, is_true. destruct v as [c|x]; [easy|].
    intros F T. apply String.eqb_eq in F, T. congruence.
  Qed.

  Lemma union_zlen x y u i : convert_union_token cx n x u = GOk i ->
    zlen (un_variants i) <= growth (union_complement_index cfg) * typedef_size (TdUnion y u).
  Proof.
    destruct u as [cond specs dflt]. cbn [convert_union_token typedef_size]. intros H.
    apply gbind_ok in H as (nm & _ & H). apply gbind_ok in H as (c & _ & H). apply gbind_ok in H as (p1 & P & H).
    apply gbind_ok in H as (p2 & D & H). cbv zeta in H.
    destruct (up_default p2) as [dv|] eqn:E; [|discriminate]. injection H as <-. cbn [un_variants].
    set (k := zlen (flat_map (fun s => match s with CaseSpec vs _ => vs end) specs)) in *.
    assert (K : 0 <= k) by apply zlen_nonneg.
    assert (D2 : zlen (up_specs p2) = zlen (up_specs p1) + match dflt with Some _ => 1 | None => 0 end /\
                 (dflt = None -> p2 = p1)).
    { destruct dflt as [d|]; cbn [union_default] in D.
      - apply gbind_ok in D as (t & _ & [= <-]). cbn [up_specs]. rewrite zlen_app. split; [easy|discriminate].
      - injection D as <-. split; [lia|easy]. }
    destruct D2 as [D2 D3].
    assert (A : forall cond', (values <~ gmap (fun s => match s with CaseSpec vs d =>
                                  gmap (fun v => z <~ resolve_value cx n KU32 v;; GOk (z, d, v)) vs end) specs;;
                union_values cx n cond' 0 (sort_by (fun p => fst (fst p)) (concat values)) no_parts) = GOk p1 ->
              zlen (up_specs p2) <= growth (union_complement_index cfg) * (k + match dflt with Some _ => 1 | None => 0 end)).
    { intros c' Q. apply gbind_ok in Q as (vals & V & Q). apply cases_zlen in V as [V1 V2].
      apply union_values_zlen in Q; [|intros p I; apply V2; now apply sort_in in I|lia].
      rewrite sort_zlen, V1 in Q. fold k in Q. cbn [up_specs no_parts] in Q. change (zlen (@nil variant)) with 0 in Q. rewrite D2.
      unfold growth in *. destruct (union_complement_index cfg), dflt; lia. }
    destruct c; try discriminate P; try (now apply A in P).
    apply gbind_ok in P as (q1 & Q1 & P). apply gbind_ok in P as (q2 & Q2 & P). injection P as <-. cbn [up_specs] in D2.
    pose proof (bool_zlen Q1) as B1. pose proof (bool_zlen Q2) as B2. cbn [up_specs no_parts] in B1. cbv iota in B2. change (zlen (@nil variant)) with 0 in B1.
    pose proof (@true_false (flat_map (fun s => match s with CaseSpec vs _ => vs end) specs)) as TF. fold k in TF.
    rewrite D2. unfold growth. destruct (union_complement_index cfg) eqn:U; [|destruct dflt; lia].
    destruct dflt as [d|]; [lia|].
    assert (1 <= k); [|lia].
    (* without default there is a case *)
    rewrite (D3 eq_refl) in E. cbn [up_default] in E. unfold k.
    destruct specs as [|[vs d] specs].
    { exfalso. cbn [bool_case find] in Q1, Q2. change (cx_config cx) with cfg in Q1, Q2. rewrite U in Q1, Q2.
      apply gbind_ok in Q1 as (? & _ & [= <-]). apply gbind_ok in Q2 as (? & _ & [= <-]). cbn in E. discriminate. }
    destruct (flat_map (fun s => match s with CaseSpec vs _ => vs end) (CaseSpec vs d :: specs)) as [|v l] eqn:L; [|rewrite zlen_cons; pose proof (zlen_nonneg l); lia].
    exfalso. assert (N : forall t : value -> bool, find (fun s => match s with CaseSpec vs _ => existsb t vs end) (CaseSpec vs d :: specs) = None).
    { intros t. destruct (find _ _) as [[vs' d']|] eqn:F; [|easy]. apply find_some in F as [F1 F2]. apply existsb_exists in F2 as (v & V & _).
      assert (I : In v (flat_map (fun s => match s with CaseSpec vs _ => vs end) (CaseSpec vs d :: specs))) by (apply in_flat_map; exists (CaseSpec vs' d'); auto).
      rewrite L in I. destruct I. }
    unfold bool_case in Q1, Q2. rewrite N in Q1, Q2. change (cx_config cx) with cfg in Q1, Q2. rewrite U in Q1, Q2.
    apply gbind_ok in Q1 as (? & _ & [= <-]). apply gbind_ok in Q2 as (? & _ & [= <-]). cbn in E. discriminate.
  Qed.

  Definition most : Z := growth (enum_complement_index cfg || union_complement_index cfg).
  Lemma item_zlen t l : type_token_of cx n t = GOk l -> fold_right (fun i s => item_size i + s) 0 l <= most * typedef_size (snd t).
  Proof.
    destruct t as [x [d|y a|y a|y u]]; cbn [type_token_of snd]; change (cx_config cx) with cfg; intros H.
    - assert (1 <= most) by (unfold most, growth; destruct (_ || _)%bool; lia). cbn [typedef_size].
      destruct (remove_typedef cfg); [injection H as <-; cbn; lia|].
      apply gbind_ok in H as (o & _ & H). apply gbind_ok in H as ([ty op] & _ & H).
      destruct op; try discriminate. apply gbind_ok in H as (z & _ & [= <-]). cbn; lia.
    - apply gbind_ok in H as (e & E & [= <-]). cbn [fold_right item_size typedef_size]. apply enum_zlen in E.
      pose proof (zlen_nonneg a). unfold most, growth in *. destruct (enum_complement_index cfg), (union_complement_index cfg); cbn [orb]; lia.
    - apply gbind_ok in H as (e & E & [= <-]). cbn [fold_right item_size typedef_size]. unfold convert_struct_token in E.
      apply gbind_ok in E as (fs & F & E). apply gbind_ok in E as (nm & _ & [= <-]). cbn [st_fields]. apply gmap_zlen in F.
      pose proof (zlen_nonneg a). unfold most, growth in *. destruct (_ || _)%bool; lia.
    - apply gbind_ok in H as (e & E & [= <-]). cbn [fold_right item_size]. apply (@union_zlen x y) in E.
      assert (0 <= typedef_size (TdUnion y u)).
      { destruct u as [c s d]. cbn [typedef_size]. pose proof (zlen_nonneg (flat_map (fun s => match s with CaseSpec vs _ => vs end) s)). destruct d; lia. }
      unfold most, growth in *. destruct (enum_complement_index cfg), (union_complement_index cfg); cbn [orb]; lia.
  Qed.
End Size.

Lemma size_app a b : fold_right (fun i s => item_size i + s) 0 (a ++ b) =
  fold_right (fun i s => item_size i + s) 0 a + fold_right (fun i s => item_size i + s) 0 b.
Proof. induction a as [|i a IH]; cbn [app fold_right]; [easy|]. rewrite IH. lia. Qed.

Lemma code_bounded n cfg ds f : gen_code n cfg ds = GOk f -> code_size f <= most cfg * defs_size ds.
Proof.
  rewrite gen_code_eq. intros H. apply gbind_ok in H as (cs & C & H). apply gbind_ok in H as (ts & T & H). injection H as <-.
  unfold code_size. cbn [fi_consts fi_types]. unfold constants_token in C. apply gmap_zlen in C. rewrite C. cbn [constants ctx].
  unfold types_token in T. apply gbind_ok in T as (l & L & [= <-]). cbn [typedefs ctx] in L. apply gmap_ok in L.
  assert (M : 1 <= most cfg) by (unfold most, growth; destruct (_ || _)%bool; lia).
  assert (S : fold_right (fun i s => item_size i + s) 0 (concat l) <= most cfg * fold_right (fun t s => typedef_size (snd t) + s) 0 (type_defs ds)).
  { induction L as [|t b ts l H _ IH]; [cbn; lia|]. cbn [concat fold_right]. rewrite size_app. apply item_zlen in H. lia. }
  assert (D : zlen (const_defs ds) + fold_right (fun t s => typedef_size (snd t) + s) 0 (type_defs ds) <= defs_size ds).
  { clear. induction ds as [|d ds IH]; [easy|]. cbn [defs_size fold_right]. fold (defs_size ds).
    unfold const_defs, type_defs in *. cbn [flat_map]. rewrite zlen_app. destruct d as [t|a| |p]; cbn [const_of type_of def_size].
    - change (zlen (@nil (string * value))) with 0. destruct (typedef_name t) eqn:N; cbn [app fold_right snd]; [lia|].
      destruct t; cbn [typedef_name typedef_size] in *; try discriminate. lia.
    - change (zlen [(as_name a, as_value a)]) with 1. cbn [app]. lia.
    - change (zlen (@nil (string * value))) with 0. cbn [app]. lia.
    - change (zlen (@nil (string * value))) with 0. cbn [app]. lia. }
  pose proof (zlen_nonneg (const_defs ds)). nia.
Qed.

(** ** Gaps *)
Section Gaps.
  Variables (cfg : config) (ds : list definition) (n : nat).
  Let cx := ctx cfg ds.
  Hypothesis D : enum_complement_index cfg = true.

  Lemma succ_high c s z z' : succ_checked c s z = GOk z' -> z' <= z + 1 \/ (z' = if s then - 2 ^ 31 else 0).
  Proof.
    unfold succ_checked. destruct (z <? _); [intros [= <-]; left; lia|]. destruct c; [discriminate|]. intros [= <-]. now right.
  Qed.
  Lemma fill_zlen l : (forall p, In p l -> - 2 ^ 31 <= fst p < 2 ^ 31) -> forall s vs e x,
    enum_values cx s l = GOk vs -> In (e, x) l -> e - s + 1 <= zlen vs.
  Proof.
    induction l as [|[e1 x1] l IH]; intros R s vs e x H I; [easy|]. cbn [enum_values] in H.
    apply gbind_ok in H as (fill & F & H). apply gbind_ok in H as (it & _ & H). apply gbind_ok in H as (s' & S & H).
    apply gbind_ok in H as (vs' & V & H). injection H as <-. change (cx_config cx) with cfg in F. rewrite D in F.
    apply gmap_zlen in F. rewrite zlen_app, zlen_cons, F, zrange_zlen. pose proof (zlen_nonneg vs').
    destruct I as [[= -> ->]|I]; [lia|].
    assert (R' : forall p, In p l -> - 2 ^ 31 <= fst p < 2 ^ 31) by (intros p P; apply R; now right).
    pose proof (IH R' s' vs' e x V I). pose proof (R (e1, x1) ltac:(now left)). cbn [fst] in *. apply succ_high in S. lia.
  Qed.

  Lemma insert_has {A} (key : A -> Z) a l y : y = a \/ In y l -> In y (insert_by key a l).
  Proof.
    induction l as [|b l IH]; cbn [insert_by]; [cbn; intuition congruence|].
    destruct (key a <=? key b); cbn [In] in *; intuition congruence.
  Qed.
  Lemma sort_has {A} (key : A -> Z) l y : In y l -> In y (sort_by key l).
  Proof.
    induction l as [|a l IH]; [easy|]. cbn [sort_by fold_right]. fold (sort_by key l). intros [->|H]; apply insert_has; auto.
  Qed.

  Lemma enum_gaps x l e a z : convert_enum_token cx n x l = GOk e -> In a l ->
    resolve_value cx n KI32 (as_value a) = GOk z -> z + 1 <= zlen (en_values e).
  Proof.
    unfold convert_enum_token. intros H I Z. apply gbind_ok in H as (ix & X & H). cbv zeta in H.
    apply gbind_ok in H as (nm & _ & H). apply gbind_ok in H as (vs & V & H). apply gbind_ok in H as (its & _ & H).
    destruct its as [|[dn dv] its]; [discriminate|]. injection H as <-. cbn [en_values].
    assert (J : In (z, as_name a) (sort_by fst ix)).
    { apply sort_has. apply gmap_ok in X. clear - X I Z. induction X as [|b p l' ix' Hb X IH]; [easy|].
      destruct I as [->|I]; [left|right; now apply IH]. rewrite Z in Hb. cbn in Hb. congruence. }
    assert (R : forall p, In p (sort_by fst ix) -> - 2 ^ 31 <= fst p < 2 ^ 31).
    { intros p P. apply sort_in in P. apply gmap_ok in X. clear - P X. induction X as [|b q l' ix' Ha X IH]; [easy|].
      destruct P as [->|P]; [|now apply IH]. apply gbind_ok in Ha as (w & W & [= <-]). apply value_range in W. cbn in *. lia. }
    pose proof (fill_zlen R V J). lia.
  Qed.
End Gaps.

Lemma size_in i l : In i l -> item_size i <= fold_right (fun i s => item_size i + s) 0 l.
Proof.
  assert (P : forall l, 0 <= fold_right (fun i s => item_size i + s) 0 l).
  { induction l0 as [|j l0 IH]; cbn [fold_right]; [lia|]. assert (0 <= item_size j) by (destruct j; cbn [item_size]; try apply zlen_nonneg; lia). lia. }
  induction l as [|j l IH]; [easy|]. cbn [fold_right]. intros [->|I]; [specialize (P l); lia|].
  assert (0 <= item_size j) by (destruct j; cbn [item_size]; try apply zlen_nonneg; lia). specialize (IH I). lia.
Qed.

Lemma gaps_filled n cfg ds f x l a c z : enum_complement_index cfg = true -> gen_code n cfg ds = GOk f ->
  In (DefType (TdEnum x l)) ds -> In a l -> as_value a = VConst c -> good_constant c -> stands_for c z ->
  z + 1 <= code_size f.
Proof.
  intros D H I J V G S. rewrite gen_code_eq in H. apply gbind_ok in H as (cs & C & H). apply gbind_ok in H as (ts & T & H). injection H as <-.
  unfold code_size. cbn [fi_consts fi_types]. unfold types_token in T. apply gbind_ok in T as (ls & L & [= <-]). cbn [typedefs ctx] in L.
  assert (K : In (x, TdEnum x l) (type_defs ds)).
  { unfold type_defs. apply in_flat_map. exists (DefType (TdEnum x l)). split; [exact I|]. cbn. now left. }
  apply gmap_ok in L. assert (M : exists b, In b ls /\ type_token_of (ctx cfg ds) n (x, TdEnum x l) = GOk b).
  { clear - L K. induction L as [|t b ts ls E _ IH]; [easy|]. destruct K as [->|K]; [exists b; split; [now left|easy]|].
    destruct (IH K) as (b' & B & E'). exists b'. split; [now right|easy]. }
  destruct M as (b & B & E). cbn [type_token_of] in E. apply gbind_ok in E as (e & E & [= <-]).
  assert (R : resolve_value (ctx cfg ds) n KI32 (as_value a) = GOk z).
  { rewrite V. cbn [resolve_value]. apply constant_fits; try easy.
    assert (Q : fits KI32 z \/ ~ fits KI32 z) by (cbn; lia). destruct Q as [Q|Q]; [exact Q|exfalso].
    unfold convert_enum_token in E. apply gbind_ok in E as (ix & X & _). apply gmap_ok in X.
    clear - X J V G S Q. induction X as [|b p l ix Hb _ IH]; [easy|]. destruct J as [->|J]; [|now apply IH].
    rewrite V in Hb. cbn [resolve_value] in Hb. rewrite (constant_overflows G S Q) in Hb. discriminate. }
  pose proof (enum_gaps D E J R) as W. assert (IE : In (IEnum e) (concat ls)) by (apply in_concat; exists [IEnum e]; split; [exact B|now left]).
  apply size_in in IE. cbn [item_size] in IE. pose proof (zlen_nonneg cs). lia.
Qed.

(** an enum with one member *)
Definition single (c : constant) : list definition := [DefType (TdEnum "e" [Assign "A" (VConst c)])].
Lemma single_generated n cfg c z : good_constant c -> stands_for c z -> 0 <= z < 2 ^ 31 - 1 ->
  exists f, gen_code n cfg (single c) = GOk f.
Proof.
  intros G S B. rewrite gen_code_eq. cbn [single constants_token gmap constants ctx const_defs flat_map const_of app gbind].
  unfold types_token. cbn [typedefs ctx type_defs single flat_map type_of typedef_name app gmap].
  cbn [type_token_of]. unfold convert_enum_token. cbn [gmap as_value as_name resolve_value].
  rewrite (constant_fits (k := KI32) G S) by (cbn; lia). cbn [gbind sort_by fold_right insert_by].
  change (upper_camel_case_ident "e") with (GOk "E"%string). cbn [gbind enum_values cx_config ctx].
  change (upper_camel_case_ident "A") with (GOk "A"%string).
  replace (succ_checked (overflow_checks cfg) true z) with (GOk (z + 1)) by (unfold succ_checked; destruct (Z.ltb_spec z (2 ^ 31 - 1)); [easy|lia]).
  assert (F : exists l, (if enum_complement_index cfg then gmap (fun z => r <~ reserved z;; GOk (r, z)) (zrange 0 z) else GOk []) = GOk l).
  { destruct (enum_complement_index cfg); [|eauto]. eexists. apply fill_ok with (g := fun z => (reserved_name z, z)); [lia|].
    intros y Y. now rewrite reserved_ok. }
  destruct F as [l F]. rewrite F. cbn [gbind gmap snd fst upper_camel_case_ident map].
  cbn [gbind]. eexists. reflexivity.
Qed.
