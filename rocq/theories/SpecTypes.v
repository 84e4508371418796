(** Specification: which XDR value a Rust value stands for (README.md, table
    "Data Types"), and what it means for a fuelled function to return. *)
From Verif Require Import Base SpecUtf8 RustTypes SpecXdr.

(** [f] returns [r]: every large enough recursion bound gives [r]. *)
Definition returns {A} (f : nat -> res A) (r : res A) : Prop :=
  r <> Fuel /\ exists N, forall n, (N <= n)%nat -> f n = r.

(** [f] does not return: every recursion bound is exhausted. *)
Definition diverges {A} (f : nat -> res A) : Prop := forall n, f n = Fuel.

Definition int_range (s : bool) (w : width) (z : Z) : Prop :=
  if s then - 2 ^ (bits w - 1) <= z < 2 ^ (bits w - 1) else 0 <= z < 2 ^ bits w.

Definition i32_range (z : Z) : Prop := - 2 ^ 31 <= z < 2 ^ 31.

(** Integer and Unsigned Integer, Hyper Integer rows of the table *)
Definition xint (s : bool) (w : width) (z : Z) : option xv :=
  match s, w with
  | true, (W8 | W16 | W32) => Some (XInt z)
  | false, (W8 | W16 | W32) => Some (XUInt z)
  | true, W64 => Some (XHyper z)
  | false, W64 => Some (XUHyper z)
  | _, W128 => None
  end.

(** [denotes R E t v x]: [v] is a value of Rust type [t] that has the XDR value
    [x].  It includes what Rust's types guarantee (integer ranges, UTF-8,
    number of fields, distinct map keys), XDR's size limits (lengths below
    2^32, enum numbers below 2^31) and that the lookup functions of
    XdrIndexer/signed32 types give the variant a number.
    With [R = true] it also requires those lookup functions to find the variant
    back, and at most ten sequence elements (number and fields) for the
    serde-xdr-derive types; with [R = false] only writing is covered. *)
Inductive denotes (R : bool) (E : env) : ty -> rval -> xv -> Prop :=
| dn_bool b : denotes R E TBool (RBool b) (XUInt (if b then 1 else 0))
| dn_int s w z x : int_range s w z -> xint s w z = Some x ->
    denotes R E (TInt s w) (RInt z) x
| dn_f32 z : 0 <= z < 2 ^ 32 -> denotes R E TF32 (RFloat z) (XFloat z)
| dn_f64 z : 0 <= z < 2 ^ 64 -> denotes R E TF64 (RFloat z) (XDouble z)
| dn_char c : is_scalar c -> denotes R E TChar (RChar c) (XUInt c)
| dn_str bs : valid_utf8 bs -> zlen bs < 2 ^ 32 -> denotes R E TStr (RStr bs) (XString bs)
| dn_bytes bs : zlen bs < 2 ^ 32 -> denotes R E TByteBuf (RBytes bs) (XOpaque bs)
| dn_none t : denotes R E (TOption t) RNone XNone
| dn_some t v x : denotes R E t v x -> denotes R E (TOption t) (RSome v) (XSome x)
| dn_unit : denotes R E TUnit RUnit XVoid
| dn_unit_struct : denotes R E TUnitStruct RUnit XVoid
| dn_newtype t v x : denotes R E t v x -> denotes R E (TNewtype t) v (XStruct [x])
| dn_box t v x : denotes R E t v x -> denotes R E (TBox t) v x
| dn_seq t vs xs : zlen vs < 2 ^ 32 -> denotes_all R E (repeat t (length vs)) vs xs ->
    denotes R E (TSeq t) (RSeq vs) (XArray xs)
| dn_array k t vs xs : denotes_all R E (repeat t k) vs xs ->
    denotes R E (TArray k t) (RSeq vs) (XFArray xs)
| dn_tuple ts vs xs : denotes_all R E ts vs xs ->
    denotes R E (TTuple ts) (RSeq vs) (XStruct xs)
| dn_tuple_struct ts vs xs : denotes_all R E ts vs xs ->
    denotes R E (TTupleStruct ts) (RSeq vs) (XStruct xs)
| dn_struct ts vs xs : denotes_all R E (map snd ts) vs xs ->
    denotes R E (TStruct ts) (RSeq vs) (XStruct xs)
| dn_map tk tv kvs ks vs : zlen kvs < 2 ^ 32 ->
    NoDup (map fst kvs) ->
    denotes_all R E (repeat tk (length kvs)) (map fst kvs) ks ->
    denotes_all R E (repeat tv (length kvs)) (map snd kvs) vs ->
    denotes R E (TMap tk tv) (RMap kvs)
      (XArray (map (fun '(k, v) => XStruct [k; v]) (combine ks vs)))
| dn_unit_variant vss i name : nth_error vss i = Some (name, VUnit) ->
    Z.of_nat i < 2 ^ 31 ->
    denotes R E (TEnum vss) (RVariant i []) (XEnum (Z.of_nat i))
| dn_newtype_variant vss i name t v x : nth_error vss i = Some (name, VNewtype t) ->
    Z.of_nat i < 2 ^ 31 -> denotes R E t v x ->
    denotes R E (TEnum vss) (RVariant i [v]) (XUnion (XEnum (Z.of_nat i)) x)
| dn_tuple_variant vss i name ts vs xs : nth_error vss i = Some (name, VTuple ts) ->
    Z.of_nat i < 2 ^ 31 -> denotes_all R E ts vs xs ->
    denotes R E (TEnum vss) (RVariant i vs) (XUnion (XEnum (Z.of_nat i)) (XStruct xs))
| dn_struct_variant vss i name ts vs xs : nth_error vss i = Some (name, VStruct ts) ->
    Z.of_nat i < 2 ^ 31 -> denotes_all R E (map snd ts) vs xs ->
    denotes R E (TEnum vss) (RVariant i vs) (XUnion (XEnum (Z.of_nat i)) (XStruct xs))
| dn_fopaque k bs : length bs = k -> denotes R E (TOpaqueFixed k) (RBytes bs) (XFOpaque bs)
| dn_opaque bs : zlen bs < 2 ^ 32 -> denotes R E TOpaqueVar (RBytes bs) (XOpaque bs)
| dn_signed32 asr tf d i z : nth_error asr i = Some z -> i32_range z ->
    (R = true -> with_dflt (assoc Z.eqb z tf) d = DVal i) ->
    denotes R E (TSigned32 asr tf d) (RVariant i []) (XEnum z)
| dn_indexer vss index names d i name ts vs xs z :
    NoDup (map fst vss) ->
    nth_error vss i = Some (name, ts) ->
    assoc String.eqb name index = Some z -> i32_range z ->
    (R = true -> with_dflt (assoc Z.eqb z names) d = DVal name /\ (length ts <= 9)%nat) ->
    denotes_all R E ts vs xs ->
    denotes R E (TIndexer vss index names d) (RVariant i vs) (XUnion (XInt z) (XStruct xs))
| dn_union vss disc names d i name ts v vs x xs :
    NoDup (map fst vss) ->
    nth_error vss i = Some (name, Some ts) ->
    denotes R E disc v x ->
    (R = true -> with_dflt (assoc rval_eqb v names) d = DVal name /\ (length ts <= 9)%nat) ->
    denotes_all R E ts vs xs ->
    denotes R E (TUnion vss disc names d) (RVariant i (v :: vs)) (XUnion x (XStruct xs))
| dn_ref name t v x : lookup E name = Some t -> denotes R E t v x ->
    denotes R E (TRef name) v x
with denotes_all (R : bool) (E : env) : list ty -> list rval -> list xv -> Prop :=
| dn_nil : denotes_all R E [] [] []
| dn_cons t ts v vs x xs : denotes R E t v x -> denotes_all R E ts vs xs ->
    denotes_all R E (t :: ts) (v :: vs) (x :: xs).

Scheme denotes_mind := Minimality for denotes Sort Prop
  with denotes_all_mind := Minimality for denotes_all Sort Prop.
Combined Scheme denotes_denotes_all_ind from denotes_mind, denotes_all_mind.

(** A value of type [t] that is supported for writing and reading. *)
Definition supported (E : env) (t : ty) (v : rval) : Prop := exists x, denotes true E t v x.

(** A value of type [t] that is supported for writing. *)
Definition writable (E : env) (t : ty) (v : rval) : Prop := exists x, denotes false E t v x.
