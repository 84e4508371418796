(** C24 and C25: the variants that can be read. *)
From Verif Require Import Base SerModel RustTypes DeModel SpecXdr SpecTypes SpecDecode SpecMisc DecProofs CodecLemmas.
Set Implicit Arguments.
Unset Strict Implicit.

Lemma read_accepts E t i n v : from_bytes n E t i = Ok v -> accepts E t v i.
Proof.
  intros H. unfold from_bytes in H. apply bind_ok in H as ([v' r] & H & K).
  destruct r; [|discriminate]. injection K as ->. apply deser_accepts in H as (c & -> & A). now rewrite app_nil_r.
Qed.
Lemma indexer_few E vss index names d b n i vs name ts :
  from_bytes n E (TIndexer vss index names d) b = Ok (RVariant i vs) -> nth_error vss i = Some (name, ts) -> (length ts <= 9)%nat.
Proof. intros H N. apply read_accepts in H. inversion H; subst. congruence. Qed.
Lemma union_few E vss disc names d b n i vs name ts :
  from_bytes n E (TUnion vss disc names d) b = Ok (RVariant i vs) -> nth_error vss i = Some (name, Some ts) -> (length ts <= 9)%nat.
Proof. intros H N. apply read_accepts in H. inversion H; subst; congruence. Qed.

Lemma returns_some {A} (f : nat -> res A) r : returns f r -> exists n, f n = r.
Proof. intros [_ [n H]]. exists n. apply H. lia. Qed.
Lemma indexer_exact E vss index names d i name ts vs z :
  NoDup (map fst vss) -> nth_error vss i = Some (name, ts) ->
  assoc String.eqb name index = Some z -> i32_range z ->
  with_dflt (assoc Z.eqb z names) d = DVal name -> Forall2 (supported E) ts vs ->
  ((exists b, encodes E (TIndexer vss index names d) (RVariant i vs) b /\
      returns (fun n => from_bytes n E (TIndexer vss index names d) b) (Ok (RVariant i vs)))
   <-> (length ts <= 9)%nat).
Proof.
  intros N T Z R D F. split.
  - intros (b & _ & H). apply returns_some in H as [n H]. exact (indexer_few H T).
  - intros L. destruct (c24 N T Z R D L F) as (w & bs & _ & _ & H1 & H2). eauto.
Qed.
Lemma union_exact E vss disc names d i name ts v vs :
  NoDup (map fst vss) -> nth_error vss i = Some (name, Some ts) ->
  with_dflt (assoc rval_eqb v names) d = DVal name ->
  supported E disc v -> Forall2 (supported E) ts vs ->
  ((exists b, encodes E (TUnion vss disc names d) (RVariant i (v :: vs)) b /\
      returns (fun n => from_bytes n E (TUnion vss disc names d) b) (Ok (RVariant i (v :: vs))))
   <-> (length ts <= 9)%nat).
Proof.
  intros N T D S F. split.
  - intros (b & _ & H). apply returns_some in H as [n H]. exact (union_few H T).
  - intros L. destruct (c25 N T D L S F) as (w & bs & _ & _ & H1 & H2). eauto.
Qed.
