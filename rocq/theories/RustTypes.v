(** Universe of Rust types that can be (de)serialized, their values, and the
    serde calls their [Serialize] impls make.

    Impls covered: serde's impls for std types, [#[derive(Serialize)]],
    serde-xdr/src/opaque.rs, serde-xdr/src/primitive.rs and
    serde-xdr-derive/src/lib.rs. *)
From Verif Require Import Base SerModel.

Inductive width := W8 | W16 | W32 | W64 | W128.

Definition bits (w : width) : Z :=
  match w with W8 => 8 | W16 => 16 | W32 => 32 | W64 => 64 | W128 => 128 end.

(** What a user-written (or generated) lookup function does on a key that is
    in none of its match arms: return a fixed result, return Err, or panic
    ([unreachable!()], [unimplemented!()]). *)
Inductive dflt (A : Type) := DVal (a : A) | DErr | DPanic.
Arguments DVal {A} _.
Arguments DErr {A}.
Arguments DPanic {A}.

Inductive ty :=
| TBool
| TInt (signed : bool) (w : width)
| TF32 | TF64
| TChar
| TStr                                   (* String *)
| TByteBuf                               (* serde_bytes::ByteBuf *)
| TOption (t : ty)
| TUnit | TUnitStruct                    (* (), struct S; *)
| TNewtype (t : ty)                      (* struct S(T); *)
| TBox (t : ty)                          (* Box<T>: serde forwards to T *)
| TSeq (t : ty)                          (* Vec<T> *)
| TArray (n : nat) (t : ty)              (* [T; N] *)
| TTuple (ts : list ty)                  (* (A, B, ..) *)
| TTupleStruct (ts : list ty)            (* struct S(A, B, ..); *)
| TStruct (ts : list (string * ty))      (* struct S { a: A, .. } *)
| TMap (k v : ty)                        (* HashMap, BTreeMap *)
| TEnum (vs : list (string * vshape))    (* #[derive(Serialize, Deserialize)] enum *)
| TOpaqueFixed (n : nat)                 (* [u8; N], with = "serde_xdr::opaque::fixed" *)
| TOpaqueVar                             (* Vec<u8>, with = "serde_xdr::opaque::variable" *)
  (* field-less enum with = "serde_xdr::primitive::signed32":
     AsRef<i32> per variant; TryFrom<i32> as arms plus fall-through *)
| TSigned32 (as_ref : list Z) (try_from : list (Z * nat)) (d : dflt nat)
  (* #[derive(XdrIndexer)] enum: variants (a unit variant is one without
     fields); index() by variant name, a missing name being an
     unimplemented!() arm; name_by_index() as arms plus fall-through *)
| TIndexer (vs : list (string * list ty)) (index : list (string * Z))
           (names : list (Z * string)) (d : dflt string)
  (* #[derive(XdrUnion)] enum: variants, discriminant type, name_by_value().
     A variant is a unit variant (None) or has fields (Some ts); the first
     field, whose type must be the discriminant's for the derived code to
     compile (lib.rs:148-149, 221), is not listed in ts. *)
| TUnion (vs : list (string * option (list ty))) (disc : ty)
         (names : list (rval * string)) (d : dflt string)
| TRef (name : string)                   (* a named type, looked up in the environment *)
with vshape :=
| VUnit
| VNewtype (t : ty)
| VTuple (ts : list ty)
| VStruct (ts : list (string * ty))
with rval :=
| RBool (b : bool)
| RInt (z : Z)
| RFloat (bits : Z)
| RChar (c : Z)
| RStr (bs : list byte)                  (* UTF-8 bytes of a String *)
| RBytes (bs : list byte)
| RNone
| RSome (v : rval)
| RUnit
| RSeq (vs : list rval)                  (* Vec, array, tuple, struct fields in order *)
| RMap (kvs : list (rval * rval))        (* map entries in iteration order *)
| RVariant (i : nat) (vs : list rval).   (* i-th declared variant *)

Definition env := list (string * ty).

Fixpoint assoc {A} (eqb : A -> A -> bool) {B} (k : A) (l : list (A * B)) : option B :=
  match l with
  | [] => None
  | (k', b) :: t => if eqb k k' then Some b else assoc eqb k t
  end.

Definition lookup (E : env) (x : string) : option ty := assoc String.eqb x E.

(** serde-xdr/src/opaque.rs:6-10 *)
Definition TVariableArray : ty := TStruct [("data"%string, TOpaqueVar)].

(** ** Equality of values (key comparison of maps, [match value] of XdrUnion) *)
Section ListEqb.
  Context {A : Type} (f : A -> A -> bool).
  Fixpoint list_eqb (a b : list A) : bool :=
    match a, b with
    | [], [] => true
    | x :: s, y :: t => f x y && list_eqb s t
    | _, _ => false
    end.
End ListEqb.

Definition bytes_eqb : list byte -> list byte -> bool := list_eqb (fun x y => Zb x =? Zb y).

Fixpoint rval_eqb (a b : rval) : bool :=
  match a, b with
  | RBool x, RBool y => Bool.eqb x y
  | RInt x, RInt y => x =? y
  | RFloat x, RFloat y => x =? y
  | RChar x, RChar y => x =? y
  | RStr x, RStr y => bytes_eqb x y
  | RBytes x, RBytes y => bytes_eqb x y
  | RNone, RNone => true
  | RSome x, RSome y => rval_eqb x y
  | RUnit, RUnit => true
  | RSeq x, RSeq y => list_eqb rval_eqb x y
  | RMap x, RMap y =>
      (fix go (p q : list (rval * rval)) : bool :=
         match p, q with
         | [], [] => true
         | (k1, v1) :: p', (k2, v2) :: q' => rval_eqb k1 k2 && rval_eqb v1 v2 && go p' q'
         | _, _ => false
         end) x y
  | RVariant i x, RVariant j y => Nat.eqb i j && list_eqb rval_eqb x y
  | _, _ => false
  end.

(** ** Lookup functions with fall-through *)
Definition with_dflt {A} (o : option A) (d : dflt A) : dflt A :=
  match o with Some a => DVal a | None => d end.

(** ** opaque.rs, write side *)

(** opaque.rs:54-64: chunks of 4, the last one completed with zeros
    ([swap_with_slice] moves the chunk into the zeroed array) *)
Fixpoint enumerate_u32 (buf : list byte) : list Z :=
  match buf with
  | [] => []
  | [a] => [be_val [a; x00; x00; x00]]
  | [a; b] => [be_val [a; b; x00; x00]]
  | [a; b; c] => [be_val [a; b; c; x00]]
  | a :: b :: c :: d :: rest => be_val [a; b; c; d] :: enumerate_u32 rest
  end.

(** opaque.rs:94-108 *)
Definition calls_opaque_fixed (buf : list byte) : sval :=
  STuple (map SU32 (enumerate_u32 buf)).

(** opaque.rs:123-137 *)
Definition calls_opaque_variable (buf : list byte) : sval :=
  SSeq (Some (zlen buf)) (map SU32 (enumerate_u32 buf)).

(** ** Serde calls made by the Serialize impl of a type *)

Definition call_int (signed : bool) (w : width) (z : Z) : sval :=
  match signed, w with
  | true, W8 => SI8 z | true, W16 => SI16 z | true, W32 => SI32 z
  | true, W64 => SI64 z | true, W128 => SI128 z
  | false, W8 => SU8 z | false, W16 => SU16 z | false, W32 => SU32 z
  | false, W64 => SU64 z | false, W128 => SU128 z
  end.

(** apply a function over two lists of the same length *)
Fixpoint zipM {A B C} (f : A -> B -> res C) (a : list A) (b : list B) : res (list C) :=
  match a, b with
  | [], [] => Ok []
  | x :: s, y :: t => c <- f x y;; cs <- zipM f s t;; Ok (c :: cs)
  | _, _ => Stuck
  end.

Fixpoint calls (n : nat) (E : env) (t : ty) (v : rval) : res sval :=
  match n with
  | O => Fuel
  | S n =>
    match t, v with
    | TBool, RBool b => Ok (SBool b)
    | TInt s w, RInt z => Ok (call_int s w z)
    | TF32, RFloat z => Ok (SF32 z)
    | TF64, RFloat z => Ok (SF64 z)
    | TChar, RChar c => Ok (SChar c)
    | TStr, RStr bs => Ok (SStr bs)
    | TByteBuf, RBytes bs => Ok (SBytes bs)
    | TOption t, RNone => Ok SNone
    | TOption t, RSome v => s <- calls n E t v;; Ok (SSome s)
    | TUnit, RUnit => Ok SUnit
    | TUnitStruct, RUnit => Ok SUnitStruct
    | TNewtype t, v => s <- calls n E t v;; Ok (SNewtypeStruct s)
    | TBox t, v => calls n E t v
    | TSeq t, RSeq vs => l <- mapM (calls n E t) vs;; Ok (SSeq (Some (zlen vs)) l)
    | TArray k t, RSeq vs => l <- mapM (calls n E t) vs;; Ok (STuple l)
    | TTuple ts, RSeq vs => l <- zipM (calls n E) ts vs;; Ok (STuple l)
    | TTupleStruct ts, RSeq vs => l <- zipM (calls n E) ts vs;; Ok (STupleStruct l)
    | TStruct ts, RSeq vs => l <- zipM (calls n E) (map snd ts) vs;; Ok (SStruct l)
    | TMap tk tv, RMap kvs =>
        l <- mapM (fun kv => a <- calls n E tk (fst kv);; b <- calls n E tv (snd kv);;
                             Ok (a, b)) kvs;;
        Ok (SMap (Some (zlen kvs)) l)
    | TEnum vss, RVariant i vs =>
        match nth_error vss i, vs with
        | Some (_, VUnit), [] => Ok (SUnitVariant (Z.of_nat i))
        | Some (_, VNewtype t), [v] => s <- calls n E t v;; Ok (SNewtypeVariant (Z.of_nat i) s)
        | Some (_, VTuple ts), _ => l <- zipM (calls n E) ts vs;; Ok (STupleVariant (Z.of_nat i) l)
        | Some (_, VStruct ts), _ =>
            l <- zipM (calls n E) (map snd ts) vs;; Ok (SStructVariant (Z.of_nat i) l)
        | _, _ => Stuck
        end
    | TOpaqueFixed k, RBytes bs => Ok (calls_opaque_fixed bs)
    | TOpaqueVar, RBytes bs => Ok (calls_opaque_variable bs)
    | TSigned32 asr _ _, RVariant i [] =>           (* primitive.rs:5-11 *)
        match nth_error asr i with Some z => Ok (SI32 z) | None => Stuck end
    | TIndexer vss index _ _, RVariant i vs =>      (* derive lib.rs:60-78 *)
        match nth_error vss i with
        | Some (name, ts) =>
            match assoc String.eqb name index with
            | Some z => l <- zipM (calls n E) ts vs;; Ok (STuple (SI32 z :: l))
            | None => Ok SPanic
            end
        | None => Stuck
        end
    | TUnion vss disc _ _, RVariant i vs =>         (* derive lib.rs:186-201 *)
        match nth_error vss i, vs with
        | Some (_, None), [] => Ok (STuple [])
        | Some (_, Some ts), _ => l <- zipM (calls n E) (disc :: ts) vs;; Ok (STuple l)
        | _, _ => Stuck
        end
    | TRef x, v => match lookup E x with Some t => calls n E t v | None => Stuck end
    | _, _ => Stuck
    end
  end.

(** ser.rs:8-15 for a value of type [t] *)
Definition to_bytes (n : nat) (E : env) (t : ty) (v : rval) : res (list byte) :=
  s <- calls n E t v;; to_bytes_calls s.
