(** Property theorem about the inputs on which the decoder panics (C09). *)
From Verif Require Import Base RustTypes SpecTypes DeModel SpecPanic PanicProofs ExamplesPanic.
Local Open Scope list_scope.

(** ** C09 the decoder panics on exactly these inputs, for every type *)
Theorem C09_panic_exact : forall E t i, returns (fun n => from_bytes n E t i) Panic <-> panics E t i.
Proof. exact panic_exact. Qed.
Print Assumptions C09_panic_exact.
Example C09_case_exact : panics [] pairs_ty pairs_cut /\ panics [] eleven eleven_input /\ panics [] moody [x00; x00; x00; x00] /\
  ~ panics [] pairs_ty (pairs_cut ++ [x00]).
Proof. exact panic_cases. Qed.
