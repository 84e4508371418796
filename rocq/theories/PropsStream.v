(** Property theorems about incomplete and overlong inputs (C84 - C86). *)
From Verif Require Import Base RustTypes SpecTypes DeModel StreamProofs ExamplesStream.
Local Open Scope list_scope.

(** ** C84 the number in NotEnoughData is the least number of missing bytes *)
Theorem C84_missing_bytes : forall n E t i k, from_bytes n E t i = Err (ENotEnoughData k) ->
  0 < k /\ forall r, zlen r < k -> from_bytes n E t (i ++ r) = Err (ENotEnoughData (k - zlen r)).
Proof. exact missing_bytes. Qed.
Print Assumptions C84_missing_bytes.
Example C84_case : from_bytes 3 [] pair_ty (firstn 11 pair_bytes) = Err (ENotEnoughData 5) /\
  from_bytes 3 [] pair_ty (firstn 13 pair_bytes) = Err (ENotEnoughData 3).
Proof. exact pair_cut. Qed.

(** ** C85 every other error is final, and TrailingData counts the bytes after a value *)
Theorem C85_final_errors : forall n E t i e r, from_bytes n E t i = Err e ->
  (forall k, e <> ENotEnoughData k) -> (forall k, e <> ETrailingData k) -> from_bytes n E t (i ++ r) = Err e.
Proof. exact final_error. Qed.
Print Assumptions C85_final_errors.
Theorem C85_trailing_bytes : forall E t i k, returns (fun n => from_bytes n E t i) (Err (ETrailingData k)) <->
  exists c s v, i = c ++ s /\ s <> [] /\ k = zlen s /\ returns (fun n => from_bytes n E t c) (Ok v).
Proof. exact trailing_bytes. Qed.
Print Assumptions C85_trailing_bytes.
Example C85_case : from_bytes 3 [] pair_ty [x00; x00; x00; x01; xff] = Err EEncoding /\
  from_bytes 3 [] pair_ty (pair_bytes ++ [x00; x00]) = Err (ETrailingData 2).
Proof. exact (conj pair_encoding pair_more). Qed.

(** ** C86 a beginning of an accepted input is reported as NotEnoughData: false
    inside the padding of a string or byte buffer *)
Theorem C86_beginnings_refuted : exists E t p q v, returns (fun n => from_bytes n E t (p ++ q)) (Ok v) /\ q <> [] /\
  returns (fun n => from_bytes n E t p) Panic.
Proof. exact padding_cut. Qed.
Print Assumptions C86_beginnings_refuted.
(** Missing: cuts inside padding, which panic; at whole units there is none. *)
Theorem C86_beginnings_partial : forall E t p q v, returns (fun n => from_bytes n E t (p ++ q)) (Ok v) -> q <> [] ->
  exists k, 0 < k <= zlen q /\ (returns (fun n => from_bytes n E t p) (Err (ENotEnoughData k)) \/
    returns (fun n => from_bytes n E t p) Panic /\ k < 4 /\ (zlen p + k) mod 4 = 0).
Proof. exact cut_short. Qed.
Print Assumptions C86_beginnings_partial.
Example C86_case : returns (fun n => from_bytes n [] pair_ty pair_bytes) (Ok (RSeq [RStr [x61; x62; x63]; RInt 7])).
Proof. exact pair_reads. Qed.
