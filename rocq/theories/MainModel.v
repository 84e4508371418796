(** Model of rpcgen/src/main.rs:25-48 and 50-66, from the contents of the
    protocol file to the standard output and the exit status.  Not modelled:
    the command line (lines 7-23, a library), which gives the flags and the
    path.  The messages on the standard error are in DisplayModel. *)
From Verif Require Import Base Utf8 Nom GenModel RustAst ParserModel RustText.

Definition text_of (bs : list byte) : text := map ascii_of_byte bs.
Definition bytes_of (t : text) : list byte := map byte_of_ascii t.

Inductive run :=
| Running                                          (* more steps than allowed *)
| Exit (stdout : list byte) (status : Z).

(** The contents are absent when fs::read_to_string fails for another reason
    than the encoding.  [main] returns [Err] for each [?] that fails: status 1.
    A panic has status 101.  Nothing is printed before line 45. *)
Definition main (n : nat) (fl : flags) (checks : bool) (contents : option (list byte)) : run :=
  match contents with
  | None => Exit [] 1
  | Some bs =>
      if utf8_ok bs then
        match rpcgen n fl checks (text_of bs) with
        | GOk f => Exit (bytes_of (printed f)) 0
        | GErr _ => Exit [] 1
        | GPanic => Exit [] 101
        | GFuel => Running
        end
      else Exit [] 1
  end.
