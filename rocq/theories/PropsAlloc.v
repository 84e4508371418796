(** Property theorems about the memory that decoding requests (C107). *)
From Verif Require Import Base RustTypes DeModel Ast GenModel SpecGen GenSem SpecXdl SpecWire SpecGrammar SpecWork AllocModel SpecAlloc AllocProofs AllocGen SpecEmit ExamplesEmit ExamplesAlloc.
Local Open Scope string_scope.
Local Open Scope list_scope.

(** ** C107 decoding requests at most a fixed amount of memory per byte of input *)
Theorem C107_bounded : forall sz limit S P, 0 <= limit -> 1 <= S -> 0 <= P -> forall E n t i,
  modest sz S P E t -> unboxed_top sz E t -> 0 <= meter sz limit n E t i <= (limit + 16 * S) * zlen i + P.
Proof. exact meter_bound. Qed.
Print Assumptions C107_bounded.
Example C107_case : modest blob_size 48 16 blob_env (TRef "node") /\ unboxed_top blob_size blob_env (TRef "node") /\ ~ light blob_size blob_env (TRef "node") /\
  meter blob_size (2 ^ 20) 9 blob_env (TRef "node") blob_bytes = 16 + 1 + 16 + 2 + 48.
Proof. exact blob_case. Qed.
(** generated types, whatever the flags *)
Theorem C107_generated : forall cfg ds f E x sz limit S P, generated cfg ds f E -> self_free ds -> 0 <= limit -> 1 <= S -> 2 ^ 32 - 1 <= P ->
  sizes sz S E (TRef x) -> forall n i, 0 <= meter sz limit n E (TRef x) i <= (limit + 16 * S) * zlen i + P.
Proof. exact generated_meter. Qed.
Print Assumptions C107_generated.
(** a generated type for which every word of some input costs a whole limit *)
Theorem C107_amplified : forall sz limit k, let s := sz (TRef "Node") in 0 < s <= limit -> limit < 2 ^ 32 -> (forall u, 0 <= sz u) ->
  forall n, (4 * k <= n)%nat -> Z.of_nat k * (s * (limit / s)) <= meter sz limit n herd_env (TRef "Node") (repeat xff (4 * k)).
Proof. exact herd_amplified. Qed.
Print Assumptions C107_amplified.
Example C107_case_generated : good_spec herd_defs /\ self_free herd_defs /\ sizes herd_size 24 herd_env (TRef "Node") /\ (forall fl checks, exists f, generated (main_config fl checks) herd_defs f herd_env /\ compiles f) /\
  modest herd_size 24 0 herd_env (TRef "Node") /\
  meter herd_size (2 ^ 20) 9 herd_env (TRef "Node") [x00; x00; x00; x01; x00; x00; x00; x00] = 8 + 24 + 24.
Proof. exact (conj herd_good (conj herd_selves (conj herd_sizes (conj herd_file herd_case)))). Qed.
