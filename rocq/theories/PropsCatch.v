(** Property theorems about Deserialize impls that catch errors (C100). *)
From Verif Require Import Base RustTypes SerModel SpecTypes DeModel VisitModel CatchModel SpecCatch CatchProofs ExamplesVisit ExamplesCatch.
Local Open Scope list_scope.

(** ** C100 an impl that catches an error stays in step with the input *)
(** text that is not UTF-8 leaves the position inside of a unit *)
Theorem C100_in_step_refuted : exists (p : cimpl (list (option (list byte)))) i a u j, ccalm p /\ zlen i mod 4 = 0 /\ i = u ++ j /\
  crun p i = (Ok a, j) /\ zlen u mod 4 <> 0.
Proof. exact in_step_false. Qed.
Print Assumptions C100_in_step_refuted.
Theorem C100_panic_refuted : exists (p : cimpl (list (option (list byte)))) i, ccalm p /\ zlen i mod 4 = 0 /\ from_bytes_catching p i = Panic.
Proof. exact catch_panics. Qed.
Print Assumptions C100_panic_refuted.
(** what was left of an element whose error was caught is read as the next element *)
Theorem C100_next_element_refuted : exists (p : cimpl (Z * Z)) i, textless p /\ ccalm p /\
  from_bytes_catching (vec p) ([x00; x00; x00; x01] ++ skipn 12 i) = Ok [(65, 8)] /\
  crun (vec (or_none p)) i = (Ok [None; Some (7, 65)], [x00; x00; x00; x08]).
Proof. exact next_element_false. Qed.
Print Assumptions C100_next_element_refuted.
(** missing: impls that catch an error where text is read *)
Theorem C100_in_step_partial : forall A (p : cimpl A) i r j, careful p -> crun p i = (r, j) ->
  exists u, i = u ++ j /\ (forall a, r = Ok a -> zlen u mod 4 = 0) /\ (forall e, r = Err e -> e <> EEncoding -> zlen u mod 4 = 0).
Proof. exact catch_in_step. Qed.
Print Assumptions C100_in_step_partial.
Theorem C100_textless_partial : forall A (p : cimpl A) i r j, textless p -> crun p i = (r, j) -> r <> Panic -> exists u, i = u ++ j /\ zlen u mod 4 = 0.
Proof. exact catch_textless. Qed.
Print Assumptions C100_textless_partial.
Theorem C100_no_panic_partial : forall A (p : cimpl A) i, careful p -> ccalm p -> zlen i mod 4 = 0 -> from_bytes_catching p i <> Panic.
Proof. exact catch_no_panic. Qed.
Print Assumptions C100_no_panic_partial.
Theorem C100_units_partial : forall A (p : cimpl A) i a, careful p -> from_bytes_catching p i = Ok a -> zlen i mod 4 = 0.
Proof. exact catch_units. Qed.
Print Assumptions C100_units_partial.
(** every impl: the position only moves forward, and the run ends *)
Theorem C100_forward : forall A (p : cimpl A) i r j, crun p i = (r, j) -> (exists u, i = u ++ j) /\ r <> Fuel /\ r <> Stuck.
Proof. exact catch_forward. Qed.
Print Assumptions C100_forward.
(** the impls of C91 - C94 are the ones that catch nothing *)
Theorem C100_instance : forall A (p : impl A) i, run p i <> Fuel -> run p i <> Stuck ->
  from_bytes_catching (lift p) i = from_bytes_with p i /\ careful (lift p).
Proof. exact catch_instance. Qed.
Print Assumptions C100_instance.
Example C100_case_next : careful (vec (or_none pair_c)) /\ ccalm (vec (or_none pair_c)) /\
  from_bytes_catching (vec (or_none pair_c)) bad_pairs = Err (ETrailingData 4) /\
  crun (vec (or_none pair_c)) bad_pairs = (Ok [None; Some (7, 65)], [x00; x00; x00; x08]).
Proof. exact next_element_moved. Qed.
Example C100_case_seen : from_bytes_catching (vec (or_none text_c)) bad_text = Err (ETrailingData 7).
Proof. exact in_step_seen. Qed.
Example C100_case_chars : textless (vec_dropping char_c) /\ ccalm (vec_dropping char_c) /\ from_bytes_catching (vec_dropping char_c) bad_chars = Ok [65; 66] /\
  from_bytes_catching (two (vec_dropping char_c) (vec text_c)) (bad_chars ++ [x00; x00; x00; x01; x00; x00; x00; x01; xff; x00; x00; x00]) = Err EEncoding.
Proof. exact chars_read. Qed.
Example C100_case_mixed : careful (two (vec_dropping char_c) (vec text_c)) /\ ccalm (two (vec_dropping char_c) (vec text_c)).
Proof. exact mixed_careful. Qed.
Example C100_case_instance : run either_impl sum_bytes = Ok (inl (2 ^ 40 + 7), []) /\ from_bytes_catching (lift either_impl) sum_bytes = Ok (inl (2 ^ 40 + 7)) /\
  from_bytes_catching (lift either_impl) (firstn 18 sum_bytes) = Err (ENotEnoughData 6).
Proof. exact either_lifted. Qed.
