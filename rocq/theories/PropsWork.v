(** Property theorems about the amount of decoded data (C95, C96). *)
From Verif Require Import Base RustTypes SerModel DeModel SpecTypes SpecMisc Ast GenModel SpecGen GenSem SpecXdl SpecWire SpecGrammar SpecWire SpecWork WorkProofs DepthProofs ExamplesEmit ExamplesWork.
Local Open Scope string_scope.
Local Open Scope list_scope.

(** ** C95 the input bounds the decoded data: false *)
Theorem C95_inflated_refuted : exists ds E x, good_spec ds /\
  (forall fl checks, exists f, generated (main_config fl checks) ds f E /\ compiles f) /\
  exists vs, zlen vs = 2 ^ 32 - 1 /\ returns (fun n => from_bytes n E (TRef x) [xff; xff; xff; xff]) (Ok (RSeq [RSeq vs])).
Proof. exact hollow_refuted. Qed.
Print Assumptions C95_inflated_refuted.
(** every type that needs no bytes is such an element *)
Theorem C95_empty_elements : forall E t n v, from_bytes n E t [] = Ok v ->
  exists vs, zlen vs = 2 ^ 32 - 1 /\ Forall (eq v) vs /\
    returns (fun n => from_bytes n E (TSeq t) [xff; xff; xff; xff]) (Ok (RSeq vs)).
Proof. exact empty_elements. Qed.
Print Assumptions C95_empty_elements.
Example C95_case_empty : from_bytes 9 hollow_env (TRef "Empty") [] = Ok (RSeq [RSeq []]).
Proof. exact hollow_empty. Qed.
(** Missing: sequences and maps of elements that take no bytes. *)
Theorem C95_bounded_partial : forall E t n i v, solid E t -> from_bytes n E t i = Ok v ->
  exists k, load E t v k /\ (forall k', load E t v k' -> k' = k) /\ 0 <= k /\ (i = [] -> k = 0) /\
    (i <> [] -> k + 4 <= zlen i).
Proof. exact c95_bound. Qed.
Print Assumptions C95_bounded_partial.
Example C95_case : solid tree_env (TRef "Tree") /\ from_bytes 9 tree_env (TRef "Tree") tree_bytes = Ok tree_value /\
  load tree_env (TRef "Tree") tree_value 10.
Proof. exact tree_case. Qed.

(** ** C96 the type bounds the nesting of calls: false *)
Theorem C96_deep_refuted : exists ds E x, good_spec ds /\
  (forall fl checks, exists f, generated (main_config fl checks) ds f E /\ compiles f) /\
  forall n, exists i v, zlen i <= 8 * (Z.of_nat n + 1) /\ from_bytes n E (TRef x) i = Fuel /\
    returns (fun n => from_bytes n E (TRef x) i) (Ok v).
Proof. exact deep_refuted. Qed.
Print Assumptions C96_deep_refuted.
(** Missing: types that contain themselves. *)
Theorem C96_shallow_partial : forall d E t, shallow d E t = true -> forall i,
  from_bytes d E t i <> Fuel /\ forall n, (d <= n)%nat -> from_bytes n E t i = from_bytes d E t i.
Proof. exact c96_shallow. Qed.
Print Assumptions C96_shallow_partial.
Example C96_case : shallow 6 album_env (TRef "Album") = true.
Proof. exact album_shallow. Qed.
