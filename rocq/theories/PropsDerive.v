(** Property theorems about the derive macros (C24, C25, C87). *)
From Verif Require Import Base SerModel RustTypes DeModel SpecXdr SpecTypes SpecMisc DeriveModel DeriveLemmas ExamplesDerive.
Local Open Scope string_scope.
Local Open Scope list_scope.

(** ** C24 derive(XdrIndexer), as expanded *)
(** Missing: variants with ten or more fields. *)
Theorem C24_derived_partial : forall E vs sa da index names d i x fs vals z,
  xdr_indexer (ItemEnum vs) = Some (sa, da) -> NoDup (map fst vs) ->
  nth_error vs i = Some (x, fs) -> assoc String.eqb x index = Some z -> i32_range z ->
  with_dflt (assoc Z.eqb z names) d = DVal x -> (length (types fs) <= 9)%nat ->
  Forall2 (supported E) (types fs) vals ->
  exists w bs, signed 4 z w /\ encodes_all E (types fs) vals bs /\
    returns (fun n => s <- indexer_serialize n E vs sa index i vals;; to_bytes_calls s) (Ok (w ++ bs)) /\
    forall r, returns (fun n => indexer_deserialize n E vs da names d ((w ++ bs) ++ r)) (Ok (RVariant i vals, r)).
Proof. exact indexer_derived. Qed.
Print Assumptions C24_derived_partial.
Example C24_derived_case : xdr_indexer (ItemEnum shape) = Some (shape_ser, shape_de) /\
  (s <- indexer_serialize 2 [] shape shape_ser [("Point", 4); ("Box", -1)] 1 [RInt 7; RBool true];; to_bytes_calls s)
    = Ok (be_bytes 4 4294967295 ++ be_bytes 4 7 ++ be_bytes 4 1) /\
  indexer_deserialize 2 [] shape shape_de [(4, "Point"); (-1, "Box")] DErr
    (be_bytes 4 4294967295 ++ be_bytes 4 7 ++ be_bytes 4 1 ++ [x61]) = Ok (RVariant 1 [RInt 7; RBool true], [x61]).
Proof. exact (conj shape_indexer shape_reads). Qed.
(** The missing part never holds: every such variant panics when it is read back. *)
Theorem C24_many_fields : forall E vss index names d i name ts vs z w bs,
  NoDup (map fst vss) -> nth_error vss i = Some (name, ts) -> signed 4 z w ->
  with_dflt (assoc Z.eqb z names) d = DVal name -> (10 <= length ts)%nat ->
  Forall2 (supported E) ts vs -> encodes_all E ts vs bs ->
  returns (fun n => from_bytes n E (TIndexer vss index names d) (w ++ bs)) Panic.
Proof. exact indexer_many. Qed.
Print Assumptions C24_many_fields.
Example C24_many_case : Forall2 (supported []) (repeat TBool 10) (repeat (RBool true) 10) /\
  encodes_all [] (repeat TBool 10) (repeat (RBool true) 10) (concat (repeat (be_bytes 4 1) 10)).
Proof. exact ten_bools. Qed.

(** ** C25 derive(XdrUnion), as expanded *)
(** Missing: variants with ten or more fields after the discriminant, variants without fields. *)
Theorem C25_derived_partial : forall E vs sa da vt names d i x t ts v vals,
  xdr_union (ItemEnum vs) = Some (sa, da, vt) -> NoDup (map fst vs) ->
  nth_error vs i = Some (x, FUnnamed (t :: ts)) -> t = vt ->
  with_dflt (assoc rval_eqb v names) d = DVal x -> (length ts <= 9)%nat ->
  supported E t v -> Forall2 (supported E) ts vals ->
  exists w bs, encodes E t v w /\ encodes_all E ts vals bs /\
    returns (fun n => s <- union_serialize n E vs sa i (v :: vals);; to_bytes_calls s) (Ok (w ++ bs)) /\
    forall r, returns (fun n => union_deserialize n E vs da vt names d ((w ++ bs) ++ r)) (Ok (RVariant i (v :: vals), r)).
Proof. exact union_derived. Qed.
Print Assumptions C25_derived_partial.
Example C25_derived_case : xdr_union (ItemEnum shape) = Some (shape_ser, shape_uni_de, TInt true W32) /\
  (s <- union_serialize 2 [] shape shape_ser 1 [RInt 7; RBool true];; to_bytes_calls s) = Ok (be_bytes 4 7 ++ be_bytes 4 1) /\
  union_deserialize 2 [] shape shape_uni_de (TInt true W32) [(RInt 0, "Point")] (DVal "Box")
    (be_bytes 4 7 ++ be_bytes 4 1 ++ [x61]) = Ok (RVariant 1 [RInt 7; RBool true], [x61]) /\
  (s <- union_serialize 2 [] shape shape_ser 0 [];; to_bytes_calls s) = Ok [].
Proof. exact (conj shape_union shape_union_reads). Qed.
Theorem C25_many_fields : forall E vss disc names d i name ts v vs w bs,
  NoDup (map fst vss) -> nth_error vss i = Some (name, Some ts) -> supported E disc v -> encodes E disc v w ->
  with_dflt (assoc rval_eqb v names) d = DVal name -> (10 <= length ts)%nat ->
  Forall2 (supported E) ts vs -> encodes_all E ts vs bs ->
  returns (fun n => from_bytes n E (TUnion vss disc names d) (w ++ bs)) Panic.
Proof. exact union_many. Qed.
Print Assumptions C25_many_fields.
(** A variant without fields is read from its discriminant and written as nothing. *)
Theorem C25_unit_variant : forall E vss disc names d i name, nth_error vss i = Some (name, None) ->
  encodes E (TUnion vss disc names d) (RVariant i []) [].
Proof. exact union_unit. Qed.
Print Assumptions C25_unit_variant.
Theorem C25_unit_variant_refuted : exists vss disc names d i name v w,
  NoDup (map fst vss) /\ nth_error vss i = Some (name, None) /\
  with_dflt (assoc rval_eqb v names) d = DVal name /\ encodes [] disc v w /\
  returns (fun n => from_bytes n [] (TUnion vss disc names d) w) (Ok (RVariant i [])) /\
  encodes [] (TUnion vss disc names d) (RVariant i []) [] /\
  returns (fun n => from_bytes n [] (TUnion vss disc names d) []) (Err (ENotEnoughData 4)).
Proof. exact union_unit_lost. Qed.
Print Assumptions C25_unit_variant_refuted.

(** ** C87 the derive macros expand for every enum: false for named fields, and
    for [XdrUnion] on an enum without any field *)
Theorem C87_named_fields_refuted : exists vs, xdr_indexer (ItemEnum vs) = None /\ xdr_union (ItemEnum vs) = None.
Proof. exact named_panics. Qed.
Print Assumptions C87_named_fields_refuted.
Theorem C87_no_field_refuted : exists vs, (forall x l, ~ In (x, FNamed l) vs) /\ xdr_union (ItemEnum vs) = None.
Proof. exact fieldless_panics. Qed.
Print Assumptions C87_no_field_refuted.
(** Exactly which enums they expand for. *)
Theorem C87_indexer_partial : forall vs, (exists code, xdr_indexer (ItemEnum vs) = Some code) <->
  forall x l, ~ In (x, FNamed l) vs.
Proof. exact indexer_expands. Qed.
Print Assumptions C87_indexer_partial.
Theorem C87_union_partial : forall vs, (exists code, xdr_union (ItemEnum vs) = Some code) <->
  (forall x l, ~ In (x, FNamed l) vs) /\ exists x t ts, In (x, FUnnamed (t :: ts)) vs.
Proof. exact union_expands. Qed.
Print Assumptions C87_union_partial.
Example C87_case : xdr_indexer (ItemEnum shape) = Some (shape_ser, shape_de) /\
  xdr_union (ItemEnum shape) = Some (shape_ser, shape_uni_de, TInt true W32).
Proof. exact (conj shape_indexer shape_union). Qed.
