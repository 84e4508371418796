(** A program that reads messages from a stream and asks for as many bytes as
    NotEnoughData says (C108). *)
From Verif Require Import Base RustTypes DeModel SpecTypes.
Local Open Scope list_scope.

(** [reading more E t have s r s' m]: with the bytes [have] at hand and [s] still
    in the stream, the program calls from_bytes, and as long as the answer is
    NotEnoughData(k) it takes [more k] further bytes from the stream and calls
    again.  It ends with [r], leaves [s'] in the stream and has taken bytes
    [m] times.  There is no rule for a stream that has fewer bytes: the program waits. *)
Inductive reading (more : Z -> Z) (E : env) (t : ty) : list byte -> list byte -> res rval -> list byte -> nat -> Prop :=
| re_end have s r : returns (fun n => from_bytes n E t have) r -> (forall k, r <> Err (ENotEnoughData k)) ->
    reading more E t have s r s 0
| re_more have a s k r s' m : returns (fun n => from_bytes n E t have) (Err (ENotEnoughData k)) -> zlen a = more k ->
    reading more E t (have ++ a) s r s' m -> reading more E t have (a ++ s) r s' (S m).

(** rounded up to whole XDR units *)
Definition units (k : Z) : Z := (k + 3) / 4 * 4.
(** as NotEnoughData says *)
Definition as_said (k : Z) : Z := k.

(** a sequence of messages, each one read from what the one before left *)
Inductive reading_all (more : Z -> Z) (E : env) (t : ty) : list byte -> list rval -> list byte -> Prop :=
| ra_none s : reading_all more E t s [] s
| ra_next s v s' m vs s'' : reading more E t [] s (Ok v) s' m -> reading_all more E t s' vs s'' ->
    reading_all more E t s (v :: vs) s''.
