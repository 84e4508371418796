(** Model of serde-xdr/src/ser.rs. *)
From Verif Require Import Base.

(** The calls a [Serialize] impl can make on a [Serializer]: the 29 kinds of
    serde's data model, as a tree (compound kinds list the nested calls in
    order).  [SFail] is an impl that returns [Error::custom], [SPanic] one that
    panics.  Names ([_name], [_variant], [_key]) are ignored by ser.rs and are
    left out; [len] is kept where ser.rs looks at it. *)
Inductive sval :=
| SBool (b : bool)
| SI8 (z : Z) | SI16 (z : Z) | SI32 (z : Z) | SI64 (z : Z) | SI128 (z : Z)
| SU8 (z : Z) | SU16 (z : Z) | SU32 (z : Z) | SU64 (z : Z) | SU128 (z : Z)
| SF32 (bits : Z) | SF64 (bits : Z)
| SChar (c : Z)
| SStr (bs : list byte)
| SBytes (bs : list byte)
| SNone
| SSome (s : sval)
| SUnit
| SUnitStruct
| SUnitVariant (idx : Z)
| SNewtypeStruct (s : sval)
| SNewtypeVariant (idx : Z) (s : sval)
| SSeq (len : option Z) (l : list sval)
| STuple (l : list sval)
| STupleStruct (l : list sval)
| STupleVariant (idx : Z) (l : list sval)
| SMap (len : option Z) (l : list (sval * sval))
| SStruct (l : list sval)
| SStructVariant (idx : Z) (l : list sval)
| SFail
| SPanic.

(** [Serializer::output], ser.rs:4-6 *)
Notation out := (list byte).

(** ser.rs:60-63 *)
Definition serialize_u32 (v : Z) (o : out) : res out := Ok (o ++ be_bytes 4 v).
(** ser.rs:42-45 *)
Definition serialize_i32 (v : Z) (o : out) : res out := Ok (o ++ be_bytes 4 v).
(** ser.rs:47-50 *)
Definition serialize_i64 (v : Z) (o : out) : res out := Ok (o ++ be_bytes 8 v).
(** ser.rs:65-68 *)
Definition serialize_u64 (v : Z) (o : out) : res out := Ok (o ++ be_bytes 8 v).
(** ser.rs:70-73; the float is its bit pattern *)
Definition serialize_f32 (v : Z) (o : out) : res out := Ok (o ++ be_bytes 4 v).
(** ser.rs:75-78; the float is its bit pattern *)
Definition serialize_f64 (v : Z) (o : out) : res out := Ok (o ++ be_bytes 8 v).
(** ser.rs:29-32 *)
Definition serialize_bool (v : bool) (o : out) : res out :=
  let n := if v then 1 else 0 in serialize_u32 n o.
(** ser.rs:34-36 (sign extension: the number is unchanged) *)
Definition serialize_i8 (v : Z) (o : out) : res out := serialize_i32 v o.
(** ser.rs:38-40 *)
Definition serialize_i16 (v : Z) (o : out) : res out := serialize_i32 v o.
(** ser.rs:52-54 *)
Definition serialize_u8 (v : Z) (o : out) : res out := serialize_u32 v o.
(** ser.rs:56-58 *)
Definition serialize_u16 (v : Z) (o : out) : res out := serialize_u32 v o.
(** ser.rs:80-82 *)
Definition serialize_char (v : Z) (o : out) : res out := serialize_u32 v o.

(** ser.rs:89-99; [size as u32] truncates *)
Definition serialize_bytes (v : list byte) (o : out) : res out :=
  let size := zlen v in
  let padding_size := 4 - size mod 4 in
  o1 <- serialize_u32 (wrap_u 32 size) o;;
  let o2 := o1 ++ v in
  Ok (if padding_size <? 4 then o2 ++ repeat x00 (Z.to_nat padding_size) else o2).

(** ser.rs:84-87 *)
Definition serialize_str (v : list byte) (o : out) : res out := serialize_bytes v o.

(** [variant_index.try_into()?] u32 -> i32 then [serialize_i32];
    ser.rs:122-129, 152, 181, 206 *)
Definition serialize_variant_index (idx : Z) (o : out) : res out :=
  if idx <? 2 ^ 31 then serialize_i32 idx o else Err EConvert.

(** ser.rs:156-160 and 185-189 *)
Definition serialize_len (len : option Z) (o : out) : res out :=
  match len with
  | None => Err ENotSupported
  | Some size => serialize_u32 (wrap_u 32 size) o
  end.

(** The whole [impl ser::Serializer for &mut Serializer] (ser.rs:17-209) with
    the compound serializers (ser.rs:211-328), driven by a call tree. *)
Fixpoint serialize (s : sval) (o : out) : res out :=
  match s with
  | SBool b => serialize_bool b o
  | SI8 z => serialize_i8 z o
  | SI16 z => serialize_i16 z o
  | SI32 z => serialize_i32 z o
  | SI64 z => serialize_i64 z o
  | SI128 _ => Err (ECustom MUnsupported128)      (* serde default method *)
  | SU8 z => serialize_u8 z o
  | SU16 z => serialize_u16 z o
  | SU32 z => serialize_u32 z o
  | SU64 z => serialize_u64 z o
  | SU128 _ => Err (ECustom MUnsupported128)      (* serde default method *)
  | SF32 z => serialize_f32 z o
  | SF64 z => serialize_f64 z o
  | SChar c => serialize_char c o
  | SStr bs => serialize_str bs o
  | SBytes bs => serialize_bytes bs o
  | SNone => serialize_u32 0 o                    (* 101-104 *)
  | SSome v => o1 <- serialize_u32 1 o;; serialize v o1   (* 106-112 *)
  | SUnit => Ok o                                 (* 114-116 *)
  | SUnitStruct => Ok o                           (* 118-120 *)
  | SUnitVariant idx => serialize_variant_index idx o     (* 122-129 *)
  | SNewtypeStruct v => serialize v o             (* 131-140 *)
  | SNewtypeVariant idx v =>                      (* 142-154 *)
      o1 <- serialize_variant_index idx o;; serialize v o1
  | SSeq len l => o1 <- serialize_len len o;; foldM serialize l o1   (* 156-160, 234-248 *)
  | STuple l => foldM serialize l o               (* 162-164, 282-296 *)
  | STupleStruct l => foldM serialize l o         (* 166-172, 298-312 *)
  | STupleVariant idx l =>                        (* 174-183, 314-328 *)
      o1 <- serialize_variant_index idx o;; foldM serialize l o1
  | SMap len l =>                                 (* 185-189, 211-232 *)
      o1 <- serialize_len len o;;
      foldM (fun '(k, v) o => o' <- serialize k o;; serialize v o') l o1
  | SStruct l => foldM serialize l o              (* 191-197, 250-264 *)
  | SStructVariant idx l =>                       (* 199-208, 266-280 *)
      o1 <- serialize_variant_index idx o;; foldM serialize l o1
  | SFail => Err (ECustom MUser)
  | SPanic => Panic
  end.

(** ser.rs:8-15, for a value whose Serialize impl makes the calls [s] *)
Definition to_bytes_calls (s : sval) : res (list byte) := serialize s [].
