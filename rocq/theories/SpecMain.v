(** Specification vocabulary for the rpcgen program. *)
From Verif Require Import Base Nom GenModel MainModel.

(** the program ends with this output and this status *)
Definition exits (fl : flags) (checks : bool) (contents : option (list byte)) (out : list byte) (status : Z) : Prop :=
  exists N, forall n, (N <= n)%nat -> main n fl checks contents = Exit out status.
