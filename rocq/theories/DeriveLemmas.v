(** The derive macros: which enums they accept and what the derived code does. *)
From Verif Require Import Base SpecUtf8 SerModel RustTypes DeModel SpecXdr SpecTypes SpecMisc XdrFacts RvalFacts ReadFacts EncProofs DecProofs CodecProofs CodecLemmas StreamProofs DeriveModel DeriveProofs.
Set Implicit Arguments.
Unset Strict Implicit.

(** ** Accepted enums *)
Theorem indexer_expands vs : (exists code, xdr_indexer (ItemEnum vs) = Some code) <-> forall x l, ~ In (x, FNamed l) vs.
Proof.
  cbn [xdr_indexer]. split.
  - intros [[sa da] H]. now apply indexer_arms_eq in H.
  - intros H. eexists (_, _). apply indexer_arms_eq. split; [exact H|split; reflexivity].
Qed.
Lemma first_ty_some vs : (forall x l, ~ In (x, FNamed l) vs) -> ((exists t, first_ty vs = Some t) <-> exists x t ts, In (x, FUnnamed (t :: ts)) vs).
Proof.
  intros N. induction vs as [|[x fs] vs IH]; [split; [intros [t H]; discriminate|intros (x & t & ts & [])]|].
  assert (N' : forall x l, ~ In (x, FNamed l) vs) by (intros y l H; apply (N y l); now right). specialize (IH N'). cbn [first_ty].
  destruct fs as [l|[|t ts]|].
  - exfalso. apply (N x l). now left.
  - cbn. rewrite IH. split; [intros (y & t & ts & H); exists y, t, ts; now right|intros (y & t & ts & [H|H]); [discriminate|now exists y, t, ts]].
  - cbn. split; [intros _; exists x, t, ts; now left|intros _; now exists t].
  - cbn. rewrite IH. split; [intros (y & t & ts & H); exists y, t, ts; now right|intros (y & t & ts & [H|H]); [discriminate|now exists y, t, ts]].
Qed.
Theorem union_expands vs : (exists code, xdr_union (ItemEnum vs) = Some code) <->
  (forall x l, ~ In (x, FNamed l) vs) /\ exists x t ts, In (x, FUnnamed (t :: ts)) vs.
Proof.
  cbn [xdr_union]. split.
  - intros [code H]. destruct (union_arms None vs) as [[[sa da] [w|]]|] eqn:U; try discriminate. apply union_arms_eq in U as (N & _ & _ & W).
    split; [exact N|]. apply first_ty_some; [exact N|]. now exists w.
  - intros [N F]. apply first_ty_some in F as [t F]; [|exact N].
    assert (U : union_arms None vs = Some (map (fun p => fst (uarms_of (fst p) (types (snd p)))) vs, map (fun p => snd (uarms_of (fst p) (types (snd p)))) vs, Some t))
      by (apply union_arms_eq; now rewrite F). rewrite U. eexists. reflexivity.
Qed.
Lemma named_panics : exists vs, xdr_indexer (ItemEnum vs) = None /\ xdr_union (ItemEnum vs) = None.
Proof. exists [("A"%string, FNamed [("x"%string, TBool)])]. split; reflexivity. Qed.
Lemma fieldless_panics : exists vs, (forall x l, ~ In (x, FNamed l) vs) /\ xdr_union (ItemEnum vs) = None.
Proof. exists [("A"%string, FUnit)]. split; [intros x l [H|[]]; discriminate|reflexivity]. Qed.

(** ** Round trips of the expanded code *)
Lemma returns_S {A} (f : nat -> res A) r : returns f r -> returns (fun n => f (S n)) r.
Proof. intros [N [k H]]. split; [exact N|]. exists k. intros n L. apply H. lia. Qed.
Lemma returns_ext {A} (f g : nat -> res A) r : (forall n, f n = g n) -> returns g r -> returns f r.
Proof. intros EQ [N [k H]]. split; [exact N|]. exists k. intros n L. rewrite EQ. now apply H. Qed.

Theorem indexer_derived E vs sa da index names d i x fs vals z : xdr_indexer (ItemEnum vs) = Some (sa, da) -> NoDup (map fst vs) ->
  nth_error vs i = Some (x, fs) -> assoc String.eqb x index = Some z -> i32_range z ->
  with_dflt (assoc Z.eqb z names) d = DVal x -> (length (types fs) <= 9)%nat -> Forall2 (supported E) (types fs) vals ->
  exists w bs, signed 4 z w /\ encodes_all E (types fs) vals bs /\
    returns (fun n => s <- indexer_serialize n E vs sa index i vals;; to_bytes_calls s) (Ok (w ++ bs)) /\
    forall r, returns (fun n => indexer_deserialize n E vs da names d ((w ++ bs) ++ r)) (Ok (RVariant i vals, r)).
Proof.
  intros X N Hn Ha Hr Hd L S.
  assert (N' : NoDup (map fst (tuples vs))) by (unfold tuples; now rewrite map_map).
  assert (T : nth_error (tuples vs) i = Some (x, types fs)) by (unfold tuples; now rewrite nth_error_map, Hn).
  destruct (c24 N' T Ha Hr Hd L S) as (w & bs & W & B & EN & DE). exists w, bs. split; [exact W|]. split; [exact B|]. split.
  - eapply returns_ext; [intros n; rewrite (indexer_serialize_eq n E index names d X N Hn) by (now rewrite (Forall2_length' S)); reflexivity|].
    exact (returns_S EN).
  - intros r. eapply returns_ext; [intros n; apply (indexer_deserialize_eq n E index names d _ X)|].
    apply (@returns_S _ (fun n => deser n E (TIndexer (tuples vs) index names d) ((w ++ bs) ++ r))).
    destruct DE as [_ [k DE]]. specialize (DE k (le_n k)). unfold from_bytes in DE.
    destruct (deser k E (TIndexer (tuples vs) index names d) (w ++ bs)) as [[v [|b j]]|e| | |] eqn:D; try discriminate. injection DE as ->.
    destruct (c10 D) as (c & C & R). rewrite app_nil_r in C. rewrite C. apply R.
Qed.

Theorem union_derived E vs sa da vt names d i x t ts v vals : xdr_union (ItemEnum vs) = Some (sa, da, vt) -> NoDup (map fst vs) ->
  nth_error vs i = Some (x, FUnnamed (t :: ts)) -> t = vt ->
  with_dflt (assoc rval_eqb v names) d = DVal x -> (length ts <= 9)%nat -> supported E t v -> Forall2 (supported E) ts vals ->
  exists w bs, encodes E t v w /\ encodes_all E ts vals bs /\
    returns (fun n => s <- union_serialize n E vs sa i (v :: vals);; to_bytes_calls s) (Ok (w ++ bs)) /\
    forall r, returns (fun n => union_deserialize n E vs da vt names d ((w ++ bs) ++ r)) (Ok (RVariant i (v :: vals), r)).
Proof.
  intros X N Hn HT Hd L SV S. subst vt.
  assert (N' : NoDup (map fst (utuples vs))) by (unfold utuples; now rewrite map_map).
  assert (T : nth_error (utuples vs) i = Some (x, Some ts)) by (unfold utuples; now rewrite nth_error_map, Hn).
  destruct (c25 N' T Hd L SV S) as (w & bs & W & B & EN & DE). exists w, bs. split; [exact W|]. split; [exact B|]. split.
  - eapply returns_ext; [intros n; rewrite (union_serialize_eq n E names d X N Hn); [reflexivity|cbn; f_equal; now rewrite (Forall2_length' S)|intros t' [= ->]; reflexivity]|].
    exact (returns_S EN).
  - intros r. eapply returns_ext; [intros n; apply (union_deserialize_eq n E names d _ X)|].
    apply (@returns_S _ (fun n => deser n E (TUnion (utuples vs) t names d) ((w ++ bs) ++ r))).
    destruct DE as [_ [k DE]]. specialize (DE k (le_n k)). unfold from_bytes in DE.
    destruct (deser k E (TUnion (utuples vs) t names d) (w ++ bs)) as [[v' [|b j]]|e| | |] eqn:D; try discriminate. injection DE as ->.
    destruct (c10 D) as (c & C & R). rewrite app_nil_r in C. rewrite C. apply R.
Qed.

(** ** Ten fields or more *)
Lemma unwrap_panics {A} (ps : list (parser A)) c i l r : 0 <= c < zlen ps -> read_seq (firstn (Z.to_nat c) ps) i = Ok (l, r) ->
  visit_fields_unwrap ps (c, i) = Panic.
Proof.
  revert c i l r. induction ps as [|p ps IH]; intros c i l r L H; [unfold zlen in L; cbn in L; lia|].
  cbn [visit_fields_unwrap]. unfold next_element. destruct (Z.eqb_spec c 0) as [->|Z0]; [reflexivity|].
  replace (Z.to_nat c) with (S (Z.to_nat (c - 1))) in H by lia. cbn [firstn read_seq] in H.
  destruct (p i) as [[a j]|e| | |]; try discriminate. cbn [bind] in H |- *.
  destruct (read_seq (firstn (Z.to_nat (c - 1)) ps) j) as [[l' r']|e| | |] eqn:R; try discriminate.
  rewrite (IH (c - 1) j l' r'); [reflexivity| |exact R]. unfold zlen in *. cbn in L. lia.
Qed.
Lemma encodes_all_runs E ts vs bs : Forall2 (supported E) ts vs -> encodes_all E ts vs bs ->
  exists N, forall n r, (N <= n)%nat -> read_seq (map (deser n E) ts) (bs ++ r) = Ok (vs, r).
Proof.
  intros S. revert bs. induction S as [|t v ts vs SV _ IH]; intros bs H; inversion H as [|? ? ? ? b1 b2 H1 H2]; subst; [now exists O|].
  destruct (IH _ H2) as [N HN]. assert (G : exists M, forall n r, (M <= n)%nat -> deser n E t (b1 ++ r) = Ok (v, r)).
  { pose proof (c05_concat [] SV H1) as [_ [M HM]]. exists M. intros n r L. specialize (HM n L). rewrite app_nil_r in HM.
    pose proof (steady_deser n E t b1 r) as ST. unfold later in ST. rewrite HM in ST. now destruct ST as [ST _]. }
  destruct G as [M HM]. exists (Nat.max N M). intros n r L. cbn [map read_seq]. rewrite <- app_assoc. rewrite HM by lia. cbn [bind]. rewrite HN by lia. reflexivity.
Qed.
Lemma encodes_all_exists E ts vs : Forall2 (supported E) ts vs -> exists bs, encodes_all E ts vs bs.
Proof.
  induction 1 as [|t v ts vs [x D] _ [bs IH]]; [exists []; constructor|].
  destruct (to_bytes_rfc D) as (b & _ & T). exists (b ++ bs). now constructor.
Qed.
Lemma forall2_firstn {A B} (R : A -> B -> Prop) k a b : Forall2 R a b -> Forall2 R (firstn k a) (firstn k b).
Proof. intros H. revert k. induction H; intros [|k]; cbn; constructor; auto. Qed.
Lemma encodes_all_split E k ts vs bs : encodes_all E ts vs bs -> exists b1 b2, bs = b1 ++ b2 /\ encodes_all E (firstn k ts) (firstn k vs) b1.
Proof.
  intros H. revert k. induction H as [|t v ts vs b bs H1 H2 IH]; intros [|k]; cbn.
  - exists [], []. split; [reflexivity|constructor].
  - exists [], []. split; [reflexivity|constructor].
  - exists [], (b ++ bs). split; [reflexivity|constructor].
  - destruct (IH k) as (b1 & b2 & -> & H). exists (b ++ b1), b2. split; [now rewrite app_assoc|now constructor].
Qed.
Lemma many_fields E ts vs bs : (10 <= length ts)%nat -> Forall2 (supported E) ts vs -> encodes_all E ts vs bs ->
  exists N, forall n, (N <= n)%nat -> visit_fields_unwrap (map (deser n E) ts) (9, bs) = Panic.
Proof.
  intros L S B. destruct (encodes_all_split 9 B) as (b1 & b2 & -> & B1).
  destruct (encodes_all_runs (forall2_firstn 9 S) B1) as [N HN]. exists N. intros n Ln.
  apply unwrap_panics with (firstn 9 vs) b2; [unfold zlen; rewrite map_length; lia|]. change (Z.to_nat 9) with 9%nat. rewrite firstn_map. now apply HN.
Qed.
Lemma nodup_find {B} (l : list (string * B)) i x b : NoDup (map fst l) -> nth_error l i = Some (x, b) -> find_variant x l 0 = Some (i, b).
Proof.
  intros N H. apply find_variant_spec. exists i. split; [reflexivity|]. split; [exact H|]. intros j b' L K.
  apply (map_nth_error fst) in H. apply (map_nth_error fst) in K. cbn in H, K.
  rewrite NoDup_nth_error in N. specialize (N j i). rewrite H, K in N. assert (j < length (map fst l))%nat by (apply nth_error_Some; now rewrite K). 
  specialize (N H0 eq_refl). lia.
Qed.
Theorem indexer_many E vss index names d i name ts vs z w bs :
  NoDup (map fst vss) -> nth_error vss i = Some (name, ts) -> signed 4 z w ->
  with_dflt (assoc Z.eqb z names) d = DVal name -> (10 <= length ts)%nat ->
  Forall2 (supported E) ts vs -> encodes_all E ts vs bs ->
  returns (fun n => from_bytes n E (TIndexer vss index names d) (w ++ bs)) Panic.
Proof.
  intros ND Hn W Hd L S B. destruct (many_fields L S B) as [N HN]. apply returns_from_bytes with (Datatypes.S N); [|discriminate].
  unfold from_bytes. cbn [deser]. unfold next_element. cbn [Z.eqb]. rewrite (read_i32_app _ W). cbn [bind]. rewrite Hd.
  assert (find_variant name vss 0 = Some (i, ts)) as -> by now apply nodup_find.
  change (10 - 1) with 9. now rewrite (HN N (le_n N)).
Qed.
Theorem union_many E vss disc names d i name ts v vs w bs :
  NoDup (map fst vss) -> nth_error vss i = Some (name, Some ts) -> supported E disc v -> encodes E disc v w ->
  with_dflt (assoc rval_eqb v names) d = DVal name -> (10 <= length ts)%nat ->
  Forall2 (supported E) ts vs -> encodes_all E ts vs bs ->
  returns (fun n => from_bytes n E (TUnion vss disc names d) (w ++ bs)) Panic.
Proof.
  intros ND Hn SV W Hd L S B. destruct (many_fields L S B) as [N HN].
  pose proof (c05_concat bs SV W) as [_ [M HM]]. apply returns_from_bytes with (Datatypes.S (Nat.max N M)); [|discriminate].
  unfold from_bytes. cbn [deser]. unfold next_element. cbn [Z.eqb]. rewrite HM by lia. cbn [bind]. rewrite Hd.
  assert (find_variant name vss 0 = Some (i, Some ts)) as -> by now apply nodup_find.
  change (10 - 1) with 9. now rewrite (HN _ (Nat.le_max_l N M)).
Qed.
(** a variant without fields is written as nothing *)
Theorem union_unit E vss disc names d i name : nth_error vss i = Some (name, None) ->
  encodes E (TUnion vss disc names d) (RVariant i []) [].
Proof. intros H. apply (@returns_to_bytes 1); [|discriminate]. unfold to_bytes. cbn [calls]. rewrite H. reflexivity. Qed.
Theorem union_unit_lost : exists vss disc names d i name v w, NoDup (map fst vss) /\ nth_error vss i = Some (name, None) /\
  with_dflt (assoc rval_eqb v names) d = DVal name /\ encodes [] disc v w /\
  returns (fun n => from_bytes n [] (TUnion vss disc names d) w) (Ok (RVariant i [])) /\
  encodes [] (TUnion vss disc names d) (RVariant i []) [] /\
  returns (fun n => from_bytes n [] (TUnion vss disc names d) []) (Err (ENotEnoughData 4)).
Proof.
  exists [("A"%string, None)], (TInt true W32), [(RInt 1, "A"%string)], DErr, O, "A"%string, (RInt 1), (be_bytes 4 1).
  split; [repeat constructor; cbn; tauto|]. split; [reflexivity|]. split; [reflexivity|].
  split; [apply returns_to_bytes with 3%nat; [vm_compute; reflexivity|discriminate]|].
  split; [apply returns_from_bytes with 3%nat; [vm_compute; reflexivity|discriminate]|].
  split; [apply returns_to_bytes with 3%nat; [vm_compute; reflexivity|discriminate]|].
  apply returns_from_bytes with 3%nat; [vm_compute; reflexivity|discriminate].
Qed.
