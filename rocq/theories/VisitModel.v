(** Model of [impl de::Deserializer] (serde-xdr/src/de.rs:108-450) for an
    arbitrary [Deserialize] impl, not only for those of the types of
    RustTypes.v.

    An impl asks the deserializer for one of serde's kinds and gives it a
    visitor; the visitor is called with what was read and goes on from there.
    The impls of this file pass on the errors of the deserializer (the [?]
    operator); an impl that catches errors is not modelled. *)
From Verif Require Import Base SerModel RustTypes DeModel.

(** the methods of [Deserializer]; names and variant lists, which de.rs does
    not look at, are left out; of the fields of a struct, which de.rs only
    counts, the number is kept (de.rs:305-315) *)
Inductive ask :=
| AAny | ABool | AInt (s : bool) (w : width) | AF32 | AF64 | AChar
| AStr | AString | ABytes | AByteBuf | AOption | AUnit | AUnitStruct | ANewtype
| ASeq | ATuple (len : Z) | ATupleStruct (len : Z) | AMap | AStruct (len : Z) | AEnum
| AIdentifier | AIgnoredAny.

(** the methods of [Visitor] that de.rs calls; the deserializer that
    visit_some, visit_newtype_struct, visit_seq, visit_map and visit_enum get
    is the state of [run_act].  The count is what size_hint of a sequence
    returns at first (de.rs:365-367). *)
Inductive visit :=
| VsBool (b : bool) | VsInt (z : Z) | VsF32 (z : Z) | VsF64 (z : Z) | VsChar (c : Z)
| VsStr (bs : list byte) | VsBytes (bs : list byte) | VsNone | VsSome | VsUnit | VsNewtype
| VsSeq (count : Z) | VsMap (count : Z) | VsEnum.

(** de.rs:111-341 up to the call of the visitor *)
Definition visit_of (q : ask) : parser visit := fun i =>
  match q with
  | AAny | AIgnoredAny => Err ENotImplemented                              (* 111-116, 336-341 *)
  | ABool => '(z, i) <- read_u32 i;; Ok (VsBool (negb (z =? 0)), i)        (* 118-123 *)
  | AInt s w => '(z, i) <- de_int s w i;; Ok (VsInt z, i)                  (* 125-179 *)
  | AF32 => '(z, i) <- read_f32 i;; Ok (VsF32 z, i)                        (* 181-186 *)
  | AF64 => '(z, i) <- read_f64 i;; Ok (VsF64 z, i)                        (* 188-193 *)
  | AChar => '(z, i) <- read_char i;; Ok (VsChar z, i)                     (* 195-200 *)
  | AStr | AString | AIdentifier => '(bs, i) <- read_string i;; Ok (VsStr bs, i)  (* 202-214, 329-334 *)
  | ABytes | AByteBuf => '(bs, i) <- read_bytes i;; Ok (VsBytes bs, i)     (* 216-228 *)
  | AOption => '(z, i) <- read_u32 i;; Ok (if z =? 0 then VsNone else VsSome, i)  (* 230-239 *)
  | AUnit | AUnitStruct => Ok (VsUnit, i)                                  (* 241-257 *)
  | ANewtype => Ok (VsNewtype, i)                                          (* 259-268 *)
  | ASeq => '(count, i) <- read_u32 i;; Ok (VsSeq count, i)                (* 270-276 *)
  | ATuple len | ATupleStruct len | AStruct len => Ok (VsSeq len, i)       (* 278-295, 305-315 *)
  | AMap => '(count, i) <- read_u32 i;; Ok (VsMap count, i)                (* 297-303 *)
  | AEnum => Ok (VsEnum, i)                                                (* 317-327 *)
  end.

(** How a visitor ends: it returns a value, returns an error of its own (an
    impl is generic in the error type, so [Error::custom] is all it has), or
    panics.  [Bound] and [Ill] are not behaviours of an impl: they are the
    bound and the ill-typed case of [deser], which is an instance (VisitProofs.v). *)
Inductive result (A : Type) := Give (a : A) | Fail (m : msg) | Crash | Bound | Ill.
Arguments Give {A} a.
Arguments Fail {A} m.
Arguments Crash {A}.
Arguments Bound {A}.
Arguments Ill {A}.

Definition res_of {A} (r : result A) : res A :=
  match r with
  | Give a => Ok a
  | Fail m => Err (ECustom m)
  | Crash => Panic
  | Bound => Fuel
  | Ill => Stuck
  end.

(** A [Deserialize] impl (or [DeserializeSeed]) for a type [A]: the method it
    calls and its visitor.  [act] is what a visitor does: return, go on with
    the deserializer (visit_some, visit_newtype_struct), or use its access
    object:
    [Next], next_element or next_key; [Value], next_value, newtype_variant,
    and tuple_variant and struct_variant with [Ask (ATuple len)] (de.rs:434-450);
    [Variant], variant_seed with a seed that is given an index.
    unit_variant does nothing (de.rs:423-425). *)
Inductive impl : Type -> Type :=
| Ask {A} (q : ask) (on : visit -> act A) : impl A
with act : Type -> Type :=
| Done {A} (r : result A) : act A
| More {A} (p : impl A) : act A
| Next {A B} (seed : impl B) (k : option B -> act A) : act A
| Value {A B} (seed : impl B) (k : B -> act A) : act A
| Variant {A B} (seed : Z -> result B) (k : B -> act A) : act A.

(** the count of the access object, de.rs:344-348, 370-374 *)
Definition count_of (v : visit) : Z :=
  match v with VsSeq c | VsMap c => c | _ => 0 end.

(** Running an impl.  [c] is the count of the access object;
    next_element_seed and next_key_seed: de.rs:353-363, 379-389;
    next_value_seed and newtype_variant_seed: 391-396, 427-432;
    variant_seed: 409-417. *)
Fixpoint run {A} (p : impl A) (i : st) : res (A * st) :=
  match p in impl A return res (A * st) with
  | Ask q on => '(v, i) <- visit_of q i;; run_act (on v) (count_of v) i
  end
with run_act {A} (a : act A) (c : Z) (i : st) : res (A * st) :=
  match a in act A return res (A * st) with
  | Done r => a <- res_of r;; Ok (a, i)
  | More p => run p i
  | Next seed k =>
      if c =? 0 then run_act (k None) c i
      else '(b, i) <- run seed i;; run_act (k (Some b)) (c - 1) i
  | Value seed k => '(b, i) <- run seed i;; run_act (k b) c i
  | Variant seed k =>
      '(z, i) <- read_i32 i;;
      if z <? 0 then Err EConvert else b <- res_of (seed z);; run_act (k b) c i
  end.

(** de.rs:25-36 *)
Definition from_bytes_with {A} (p : impl A) (value : list byte) : res A :=
  '(v, rest) <- run p value;;
  match rest with
  | [] => Ok v
  | _ => Err (ETrailingData (zlen rest))
  end.
