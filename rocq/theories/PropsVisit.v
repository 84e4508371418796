(** Property theorems about arbitrary Serialize and Deserialize impls (C91 - C94). *)
From Verif Require Import Base RustTypes SerModel SpecTypes DeModel VisitModel VisitTypes SpecVisit VisitProofs VisitAgree VisitLoop ExamplesVisit.
Local Open Scope list_scope.

(** ** C91 every Deserialize impl reads locally and in whole units *)
Theorem C91_local : forall A (p : impl A) i a j, run p i = Ok (a, j) ->
  exists u, i = u ++ j /\ zlen u mod 4 = 0 /\ forall r, run p (u ++ r) = Ok (a, r).
Proof. exact run_local. Qed.
Print Assumptions C91_local.
Theorem C91_units : forall A (p : impl A) i a, from_bytes_with p i = Ok a -> zlen i mod 4 = 0.
Proof. exact with_units. Qed.
Print Assumptions C91_units.
(** the types of the other properties are instances *)
Theorem C91_types : forall n E t i, from_bytes_with (impl_of n E t) i = from_bytes n E t i.
Proof. exact from_bytes_instance. Qed.
Print Assumptions C91_types.
Example C91_case : run either_impl (sum_bytes ++ [x01; x02]) = Ok (inl (2 ^ 40 + 7), [x01; x02]) /\
  from_bytes_with either_impl head_bytes = Ok (inr [x62; x63]).
Proof. exact sum_reads. Qed.
Example C91_case_types : from_bytes_with (impl_of 3 [] (TStruct [("x"%string, TStr); ("y"%string, TMap TBool TChar)]))
  [x00; x00; x00; x02; x62; x63; x00; x00; x00; x00; x00; x01; x00; x00; x00; x01; x00; x00; x00; x41] = Ok (RSeq [RStr [x62; x63]; RMap [(RBool true, RChar 65)]]).
Proof. exact instance_reads. Qed.

(** ** C92 whole units panic only in the impl itself *)
Theorem C92_calm : forall A (p : impl A) i, calm p -> zlen i mod 4 = 0 -> from_bytes_with p i <> Panic.
Proof. exact with_calm. Qed.
Print Assumptions C92_calm.
Example C92_case : calm either_impl.
Proof. exact either_calm. Qed.
Example C92_case_input : zlen (firstn 20 sum_bytes) mod 4 = 0 /\
  from_bytes_with either_impl (firstn 20 sum_bytes) = Err (ENotEnoughData 4).
Proof. exact either_whole. Qed.
Example C92_case_panicking : from_bytes_with (impl_of 2 [] panicking) [x00; x00; x00; x05] = Panic /\
  ~ calm (impl_of 2 [] panicking).
Proof. exact panicking_crashes. Qed.

(** ** C93 a Deserialize impl gets back what a Serialize impl said *)
Theorem C93_loopback : forall A s bs (p : impl A) a, to_bytes_calls s = Ok bs -> Forall tok_ok (tokens s) ->
  hear p (tokens s) = Some (a, []) -> from_bytes_with p bs = Ok a.
Proof. exact loopback. Qed.
Print Assumptions C93_loopback.
Theorem C93_stream : forall A s bs (p : impl A) a rest, to_bytes_calls s = Ok bs -> Forall tok_ok (tokens s) ->
  hear p (tokens s) = Some (a, []) -> run p (bs ++ rest) = Ok (a, rest).
Proof. exact loopback_rest. Qed.
Print Assumptions C93_stream.
Example C93_case_written : to_bytes_calls sum_calls = Ok sum_bytes.
Proof. exact sum_written. Qed.
Example C93_case_ok : Forall tok_ok (tokens sum_calls) /\ Forall tok_ok (tokens head_calls).
Proof. exact sum_ok. Qed.
Example C93_case_heard : hear either_impl (tokens sum_calls) = Some (inl (2 ^ 40 + 7), []) /\
  hear either_impl (tokens head_calls) = Some (inr [x62; x63], []).
Proof. exact sum_heard. Qed.
Example C93_case_other_kind : hear head_impl (tokens sum_calls) = None.
Proof. exact sum_not_heard. Qed.

(** ** C94 the errors mean the same for every Deserialize impl *)
Theorem C94_missing : forall A (p : impl A) i k, from_bytes_with p i = Err (ENotEnoughData k) ->
  0 < k /\ forall r, zlen r < k -> from_bytes_with p (i ++ r) = Err (ENotEnoughData (k - zlen r)).
Proof. exact with_missing. Qed.
Print Assumptions C94_missing.
Theorem C94_trailing : forall A (p : impl A) i k, from_bytes_with p i = Err (ETrailingData k) <->
  exists c s a, i = c ++ s /\ s <> [] /\ k = zlen s /\ from_bytes_with p c = Ok a.
Proof. exact with_trailing. Qed.
Print Assumptions C94_trailing.
Theorem C94_final : forall A (p : impl A) i e r, from_bytes_with p i = Err e ->
  (forall k, e <> ENotEnoughData k) -> (forall k, e <> ETrailingData k) -> from_bytes_with p (i ++ r) = Err e.
Proof. exact with_final. Qed.
Print Assumptions C94_final.
Theorem C94_cut : forall A (p : impl A) i q a, from_bytes_with p (i ++ q) = Ok a -> q <> [] ->
  exists k, 0 < k <= zlen q /\ (from_bytes_with p i = Err (ENotEnoughData k) \/
    from_bytes_with p i = Panic /\ k < 4 /\ (zlen i + k) mod 4 = 0).
Proof. exact with_cut. Qed.
Print Assumptions C94_cut.
Example C94_case : from_bytes_with either_impl (firstn 18 sum_bytes) = Err (ENotEnoughData 6) /\
  from_bytes_with either_impl (head_bytes ++ [x09]) = Err (ETrailingData 1) /\
  from_bytes_with either_impl (firstn 12 head_bytes ++ [xff; xff; x00; x00]) = Err EEncoding.
Proof. exact either_errors. Qed.
