(** Model of the [Utf8Error] that [str::from_utf8] returns at serde-xdr/src/de.rs:89 and that
    serde-xdr/src/error.rs:57-61 keeps in [Error::Encoding]. *)
From Verif Require Import Base Utf8 DeModel.

(** [core::str::validations::run_utf8_validation], see [Utf8]: [valid_up_to], counted from [k], and
    [error_len]; [None] if the bytes are valid. *)
Fixpoint utf8_error (k : Z) (bs : list byte) : option (Z * option Z) :=
  match bs with
  | [] => None
  | b0 :: r0 =>
      if Zb b0 <? 0x80 then utf8_error (k + 1) r0
      else if between 0xC2 0xDF b0 then
        match r0 with
        | [] => Some (k, None)
        | b1 :: r1 => if cont b1 then utf8_error (k + 2) r1 else Some (k, Some 1)
        end
      else if between 0xE0 0xEF b0 then
        match r0 with
        | [] => Some (k, None)
        | b1 :: r1 =>
            if ok3 b0 b1 then
              match r1 with
              | [] => Some (k, None)
              | b2 :: r2 => if cont b2 then utf8_error (k + 3) r2 else Some (k, Some 2)
              end
            else Some (k, Some 1)
        end
      else if between 0xF0 0xF4 b0 then
        match r0 with
        | [] => Some (k, None)
        | b1 :: r1 =>
            if ok4 b0 b1 then
              match r1 with
              | [] => Some (k, None)
              | b2 :: r2 =>
                  if cont b2 then
                    match r2 with
                    | [] => Some (k, None)
                    | b3 :: r3 => if cont b3 then utf8_error (k + 4) r3 else Some (k, Some 3)
                    end
                  else Some (k, Some 2)
              end
            else Some (k, Some 1)
        end
      else Some (k, Some 1)
  end.

(** What [read_string] (de.rs:84-94) puts into [Error::Encoding], if it returns that error. *)
Definition string_error (i : list byte) : option (Z * option Z) :=
  match read_u32 i with
  | Ok (size, i) => match read size i with Ok (v, _) => utf8_error 0 v | _ => None end
  | _ => None
  end.
