(** C24 and C25: exactly which variants can be read back. *)
From Verif Require Import Base SerModel RustTypes DeModel SpecXdr SpecTypes SpecMisc ExamplesCodec ManyProofs ExamplesMany.
Local Open Scope list_scope.

(** ** C24 derive(XdrIndexer) *)
(** Missing: variants with ten or more fields, which never come back. *)
Theorem C24_exact_partial : forall E vss index names d i name ts vs z,
  NoDup (map fst vss) -> nth_error vss i = Some (name, ts) ->
  assoc String.eqb name index = Some z -> i32_range z ->
  with_dflt (assoc Z.eqb z names) d = DVal name -> Forall2 (supported E) ts vs ->
  ((exists b, encodes E (TIndexer vss index names d) (RVariant i vs) b /\
      returns (fun n => from_bytes n E (TIndexer vss index names d) b) (Ok (RVariant i vs)))
   <-> (length ts <= 9)%nat).
Proof. exact indexer_exact. Qed.
Print Assumptions C24_exact_partial.
Theorem C24_read_partial : forall E vss index names d b n i vs name ts,
  from_bytes n E (TIndexer vss index names d) b = Ok (RVariant i vs) ->
  nth_error vss i = Some (name, ts) -> (length ts <= 9)%nat.
Proof. exact indexer_few. Qed.
Print Assumptions C24_read_partial.
Example C24_exact_case : exists vss index names d name ts z, sample_indexer = TIndexer vss index names d /\
  NoDup (map fst vss) /\ nth_error vss 1 = Some (name, ts) /\
  assoc String.eqb name index = Some z /\ i32_range z /\
  with_dflt (assoc Z.eqb z names) d = DVal name /\ Forall2 (supported []) ts [RBool true; RStr [x61]] /\
  from_bytes 9 [] sample_indexer [xff; xff; xff; xff; x00; x00; x00; x01; x00; x00; x00; x01; x61; x00; x00; x00] =
    Ok (RVariant 1 [RBool true; RStr [x61]]).
Proof. exact indexer_sample. Qed.

(** ** C25 derive(XdrUnion) *)
(** Missing: variants with ten or more fields after the discriminant, which never come back. *)
Theorem C25_exact_partial : forall E vss disc names d i name ts v vs,
  NoDup (map fst vss) -> nth_error vss i = Some (name, Some ts) ->
  with_dflt (assoc rval_eqb v names) d = DVal name ->
  supported E disc v -> Forall2 (supported E) ts vs ->
  ((exists b, encodes E (TUnion vss disc names d) (RVariant i (v :: vs)) b /\
      returns (fun n => from_bytes n E (TUnion vss disc names d) b) (Ok (RVariant i (v :: vs))))
   <-> (length ts <= 9)%nat).
Proof. exact union_exact. Qed.
Print Assumptions C25_exact_partial.
Theorem C25_read_partial : forall E vss disc names d b n i vs name ts,
  from_bytes n E (TUnion vss disc names d) b = Ok (RVariant i vs) ->
  nth_error vss i = Some (name, Some ts) -> (length ts <= 9)%nat.
Proof. exact union_few. Qed.
Print Assumptions C25_read_partial.
Example C25_exact_case : exists vss disc names d name ts, sample_union = TUnion vss disc names d /\
  NoDup (map fst vss) /\ nth_error vss 1 = Some (name, Some ts) /\
  with_dflt (assoc rval_eqb (RInt 9) names) d = DVal name /\
  supported [] disc (RInt 9) /\ Forall2 (supported []) ts [RStr [x61]] /\
  from_bytes 9 [] sample_union [x00; x00; x00; x09; x00; x00; x00; x01; x61; x00; x00; x00] =
    Ok (RVariant 1 [RInt 9; RStr [x61]]).
Proof. exact union_sample. Qed.
