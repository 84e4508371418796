(** Model of the texts of errors: serde-xdr/src/error.rs:8-23, rpcgen/src/error.rs:4-10 and the
    error that main of rpcgen/src/main.rs:25-66 returns.  A text is the list of its code points.
    The derived Debug impls are modelled by what they print without the # flag. *)
From Verif Require Import Base Utf8 Nom ParserModel GenModel MainModel.

Definition codes (s : string) : list Z := map (fun a => Z.of_N (N_of_ascii a)) (chars s).

(** *** Debug of integers and of char escapes (core) *)
Definition digit (d : Z) : Z := if d <? 10 then 48 + d else 87 + d.
Fixpoint digits (n : nat) (b z : Z) : list Z :=
  match n with
  | O => []
  | S k => if z <? b then [digit z] else digits k b (z / b) ++ [digit (z mod b)]
  end.
Definition numeral (b z : Z) : list Z := digits (S (Z.to_nat (Z.log2 z))) b z.

(** Debug of str (core).  [plain c] says that the Unicode tables count [c] as printable and not as
    an extending character; the tables are not modelled, the theorems hold for all of them. *)
Definition escape (plain : Z -> bool) (c : Z) : list Z :=
  if c =? 0 then codes "\0"
  else if c =? 9 then codes "\t"
  else if c =? 13 then codes "\r"
  else if c =? 10 then codes "\n"
  else if c =? 92 then codes "\\"
  else if c =? 34 then codes "\"""
  else if plain c then [c]
  else codes "\u{" ++ numeral 16 c ++ codes "}".
Definition debug_str (plain : Z -> bool) (s : list Z) : list Z :=
  codes """" ++ flat_map (escape plain) s ++ codes """".

(** *** serde-xdr/src/error.rs:8-17 *)
Inductive xdr_error :=
| XCustom (s : list Z)
| XConvert
| XEncoding (valid_up_to : Z) (error_len : option Z)       (* str::Utf8Error *)
| XNotEnoughData (n : Z)
| XNotImplemented
| XNotSupported
| XTrailingData (n : Z).

(** derive(Debug), error.rs:8 *)
Definition debug_xdr (plain : Z -> bool) (e : xdr_error) : list Z :=
  match e with
  | XCustom s => codes "Custom(" ++ debug_str plain s ++ codes ")"
  | XConvert => codes "Convert"
  | XEncoding k l =>
      codes "Encoding(Utf8Error { valid_up_to: " ++ numeral 10 k ++ codes ", error_len: " ++
      match l with None => codes "None" | Some j => codes "Some(" ++ numeral 10 j ++ codes ")" end ++ codes " })"
  | XNotEnoughData n => codes "NotEnoughData(" ++ numeral 10 n ++ codes ")"
  | XNotImplemented => codes "NotImplemented"
  | XNotSupported => codes "NotSupported"
  | XTrailingData n => codes "TrailingData(" ++ numeral 10 n ++ codes ")"
  end.
(** impl Display, error.rs:19-23 *)
Definition display_xdr (plain : Z -> bool) (e : xdr_error) : list Z := codes "error: " ++ debug_xdr plain e.

(** *** rpcgen/src/error.rs:4-10, derive(Debug).  The text in Parse comes from the standard library
    (lines 12-16) or nom (18-22) and is a parameter. *)
Definition debug_gen (plain : Z -> bool) (parse_text : list Z) (e : gen_error) : list Z :=
  match e with
  | GNotFoundIdentifier x => codes "NotFountIdentifier(" ++ debug_str plain (codes x) ++ codes ")"
  | GNotSupported => codes "NotSupported"
  | GParse => codes "Parse(" ++ debug_str plain parse_text ++ codes ")"
  | GTrailingData => codes "TrailingData"
  end.

(** *** The error that main returns, main.rs:26 (read_to_string), 42 and 43 *)
Inductive failure :=
| FRead                        (* the file cannot be read *)
| FUtf8                        (* read_to_string: the contents are not UTF-8 *)
| FGen (e : gen_error).

Definition failure_of (n : nat) (fl : flags) (checks : bool) (contents : option (list byte)) : option failure :=
  match contents with
  | None => Some FRead
  | Some bs =>
      if utf8_ok bs then
        match rpcgen n fl checks (text_of bs) with GErr e => Some (FGen e) | _ => None end
      else Some FUtf8
  end.

(** What the runtime prints on the standard error for a main that returns an error: "Error: ", its
    Debug text (derived, main.rs:50-55) and a line feed.  The Debug text of the io::Error of a file
    that cannot be read is a parameter. *)
Definition message (plain : Z -> bool) (io_text parse_text : list Z) (f : failure) : list Z :=
  codes "Error: " ++
  match f with
  | FRead => codes "Io(" ++ io_text ++ codes ")"
  | FUtf8 => codes "Io(Error { kind: InvalidData, message: ""stream did not contain valid UTF-8"" })"
  | FGen e => codes "RpcGen(" ++ debug_gen plain parse_text e ++ codes ")"
  end ++ [10].
