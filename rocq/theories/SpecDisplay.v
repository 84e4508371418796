(** Specification vocabulary for the texts of errors (C120 - C122). *)
From Verif Require Import Base Nom GenModel MainModel DisplayModel.

(** numbers are usize values and messages are code points: not negative *)
Definition sane (e : xdr_error) : Prop :=
  match e with
  | XCustom s => Forall (fun c => 0 <= c) s
  | XEncoding k l => 0 <= k /\ match l with Some j => 0 <= j | None => True end
  | XNotEnoughData n | XTrailingData n => 0 <= n
  | _ => True
  end.

(** [ds] is the decimal numeral of [z], without leading zeros *)
Definition decimal (ds : list Z) (z : Z) : Prop :=
  Forall (fun c => 48 <= c <= 57) ds /\ fold_left (fun a c => 10 * a + (c - 48)) ds 0 = z /\
  match ds with [] => False | [_] => True | c :: _ => c <> 48 end.

(** printable ASCII characters *)
Definition ascii_print (c : Z) : Prop := 32 <= c <= 126.
Definition prints_ascii (plain : Z -> bool) : Prop := forall c, ascii_print c -> plain c = true.

(** main returns this error *)
Definition fails (fl : flags) (checks : bool) (contents : option (list byte)) (f : failure) : Prop :=
  exists N, forall n, (N <= n)%nat -> failure_of n fl checks contents = Some f.
(** the standard error of the program is this text *)
Definition complains (plain : Z -> bool) (io parse : list Z) (fl : flags) (checks : bool) (contents : option (list byte))
  (t : list Z) : Prop := exists f, fails fl checks contents f /\ message plain io parse f = t.
