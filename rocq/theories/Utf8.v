(** Model of the std functions used by serde-xdr/src/de.rs:81 ([char::from_u32])
    and serde-xdr/src/de.rs:89 ([str::from_utf8]). *)
From Verif Require Import Base.

(** [char::from_u32]: None for surrogates and values above 0x10FFFF. *)
Definition char_ok (c : Z) : bool :=
  (0 <=? c) && ((c <? 0xD800) || ((0xE000 <=? c) && (c <=? 0x10FFFF))).

(** continuation byte test of std ([next!() as i8 >= -64] is the error case) *)
Definition cont (b : byte) : bool := (0x80 <=? Zb b) && (Zb b <? 0xC0).

Definition between (lo hi : Z) (b : byte) : bool := (lo <=? Zb b) && (Zb b <=? hi).

(** [core::str::validations::run_utf8_validation]: the byte ranges of the first
    two bytes are those of the std source; the word-at-a-time ASCII fast path,
    which does not change the result, is left out. *)
Definition ok3 (b0 b1 : byte) : bool :=
  (between 0xE0 0xE0 b0 && between 0xA0 0xBF b1)
  || (between 0xE1 0xEC b0 && between 0x80 0xBF b1)
  || (between 0xED 0xED b0 && between 0x80 0x9F b1)
  || (between 0xEE 0xEF b0 && between 0x80 0xBF b1).

Definition ok4 (b0 b1 : byte) : bool :=
  (between 0xF0 0xF0 b0 && between 0x90 0xBF b1)
  || (between 0xF1 0xF3 b0 && between 0x80 0xBF b1)
  || (between 0xF4 0xF4 b0 && between 0x80 0x8F b1).

Fixpoint utf8_ok (bs : list byte) : bool :=
  match bs with
  | [] => true
  | b0 :: r0 =>
      if Zb b0 <? 0x80 then utf8_ok r0
      else if between 0xC2 0xDF b0 then
        match r0 with b1 :: r1 => cont b1 && utf8_ok r1 | [] => false end
      else if between 0xE0 0xEF b0 then
        match r0 with
        | b1 :: b2 :: r2 => ok3 b0 b1 && cont b2 && utf8_ok r2
        | _ => false
        end
      else if between 0xF0 0xF4 b0 then
        match r0 with
        | b1 :: b2 :: b3 :: r3 => ok4 b0 b1 && cont b2 && cont b3 && utf8_ok r3
        | _ => false
        end
      else false
  end.
