(** Specification: XDR values and their encoding, from RFC 4506 section 4.
    Nothing here refers to the serializer or deserializer models. *)
From Verif Require Import Base.

(** Unsigned number written by a sequence of bytes, most significant first
    (RFC 4506 section 4.1, 4.2, 4.5). *)
Fixpoint nval (bs : list byte) : Z :=
  match bs with
  | [] => 0
  | b :: t => Zb b * 256 ^ Z.of_nat (length t) + nval t
  end.

(** [k]-byte unsigned and two's complement signed numbers *)
Definition unsigned (k : nat) (z : Z) (bs : list byte) : Prop :=
  length bs = k /\ nval bs = z.

Definition signed (k : nat) (z : Z) (bs : list byte) : Prop :=
  length bs = k /\
  (0 <= z < 2 ^ (8 * Z.of_nat k - 1) /\ nval bs = z
   \/ - 2 ^ (8 * Z.of_nat k - 1) <= z < 0 /\ nval bs = z + 2 ^ (8 * Z.of_nat k)).

(** [r] zero bytes, 0 <= r < 4, making (len + r) a multiple of 4 (section 3) *)
Definition zero_pad (len : Z) (p : list byte) : Prop :=
  (len + zlen p) mod 4 = 0 /\ zlen p < 4 /\ (forall b, In b p -> Zb b = 0).

(** XDR values; one constructor per data type of RFC 4506 sections 4.1-4.19
    (quadruple precision, which the code does not support, is left out). *)
Inductive xv :=
| XInt (z : Z)                  (* 4.1 *)
| XUInt (z : Z)                 (* 4.2 *)
| XEnum (z : Z)                 (* 4.3, 4.4 *)
| XHyper (z : Z)                (* 4.5 *)
| XUHyper (z : Z)               (* 4.5 *)
| XFloat (bits : Z)             (* 4.6, IEEE bit pattern *)
| XDouble (bits : Z)            (* 4.7, IEEE bit pattern *)
| XFOpaque (bs : list byte)     (* 4.9 *)
| XOpaque (bs : list byte)      (* 4.10 *)
| XString (bs : list byte)      (* 4.11 *)
| XFArray (l : list xv)         (* 4.12 *)
| XArray (l : list xv)          (* 4.13 *)
| XStruct (l : list xv)         (* 4.14 *)
| XUnion (disc arm : xv)        (* 4.15 *)
| XVoid                         (* 4.16 *)
| XNone                         (* 4.19 *)
| XSome (x : xv).               (* 4.19 *)

Inductive rfc : xv -> list byte -> Prop :=
| rfc_int z bs : signed 4 z bs -> rfc (XInt z) bs
| rfc_uint z bs : unsigned 4 z bs -> rfc (XUInt z) bs
| rfc_enum z bs : signed 4 z bs -> rfc (XEnum z) bs
| rfc_hyper z bs : signed 8 z bs -> rfc (XHyper z) bs
| rfc_uhyper z bs : unsigned 8 z bs -> rfc (XUHyper z) bs
| rfc_float z bs : unsigned 4 z bs -> rfc (XFloat z) bs
| rfc_double z bs : unsigned 8 z bs -> rfc (XDouble z) bs
| rfc_fopaque bs p : zero_pad (zlen bs) p -> rfc (XFOpaque bs) (bs ++ p)
| rfc_opaque n bs p : unsigned 4 (zlen bs) n -> zero_pad (zlen bs) p ->
    rfc (XOpaque bs) (n ++ bs ++ p)
| rfc_string n bs p : unsigned 4 (zlen bs) n -> zero_pad (zlen bs) p ->
    rfc (XString bs) (n ++ bs ++ p)
| rfc_farray l bs : rfcs l bs -> rfc (XFArray l) bs
| rfc_array n l bs : unsigned 4 (zlen l) n -> rfcs l bs -> rfc (XArray l) (n ++ bs)
| rfc_struct l bs : rfcs l bs -> rfc (XStruct l) bs
| rfc_union d a b1 b2 : rfc d b1 -> rfc a b2 -> rfc (XUnion d a) (b1 ++ b2)
| rfc_void : rfc XVoid []
| rfc_none b : unsigned 4 0 b -> rfc XNone b
| rfc_some x b bs : unsigned 4 1 b -> rfc x bs -> rfc (XSome x) (b ++ bs)
with rfcs : list xv -> list byte -> Prop :=
| rfcs_nil : rfcs [] []
| rfcs_cons x l b bs : rfc x b -> rfcs l bs -> rfcs (x :: l) (b ++ bs).

Scheme rfc_mind := Minimality for rfc Sort Prop
  with rfcs_mind := Minimality for rfcs Sort Prop.
Combined Scheme rfc_rfcs_ind from rfc_mind, rfcs_mind.
