(** Specification: UTF-8 (RFC 3629), independent of the validation algorithm. *)
From Verif Require Import Base.

(** Unicode scalar values: all code points except surrogates. *)
Definition is_scalar (c : Z) : Prop :=
  0 <= c < 0xD800 \/ 0xE000 <= c <= 0x10FFFF.

(** [bytes_are bs zs]: the bytes have the given numeric values. *)
Definition bytes_are (bs : list byte) (zs : list Z) : Prop := map Zb bs = zs.

(** RFC 3629 section 3, table of byte layouts. *)
Inductive utf8_char : Z -> list byte -> Prop :=
| utf8_1 c bs : 0 <= c < 0x80 -> bytes_are bs [c] -> utf8_char c bs
| utf8_2 c bs : 0x80 <= c < 0x800 ->
    bytes_are bs [0xC0 + c / 64; 0x80 + c mod 64] -> utf8_char c bs
| utf8_3 c bs : 0x800 <= c < 0x10000 ->
    bytes_are bs [0xE0 + c / 4096; 0x80 + c / 64 mod 64; 0x80 + c mod 64] ->
    utf8_char c bs
| utf8_4 c bs : 0x10000 <= c <= 0x10FFFF ->
    bytes_are bs [0xF0 + c / 262144; 0x80 + c / 4096 mod 64;
                  0x80 + c / 64 mod 64; 0x80 + c mod 64] -> utf8_char c bs.

(** A byte string is valid UTF-8 when it is the concatenation of the encodings
    of some scalar values. *)
Inductive valid_utf8 : list byte -> Prop :=
| valid_nil : valid_utf8 []
| valid_app c bs rest :
    is_scalar c -> utf8_char c bs -> valid_utf8 rest -> valid_utf8 (bs ++ rest).
