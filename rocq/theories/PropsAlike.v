(** Property theorems about Rust types of the same XDR data (C112, C113). *)
From Verif Require Import Base RustTypes SpecXdr SpecTypes SpecMisc SerModel DeModel SpecAlike AlikeProofs ExamplesAlike.

(** ** C112 a message can be read as any other Rust type of the same XDR data *)
Theorem C112_written : forall E t v u w b, view E t v u w -> supported E t v -> encodes E t v b ->
  encodes E u w b /\ returns (fun n => from_bytes n E u b) (Ok w).
Proof. exact alike_written. Qed.
Print Assumptions C112_written.
(** also for values that can only be written *)
Theorem C112_writable : forall E t v u w b, view E t v u w -> writable E t v -> encodes E t v b ->
  writable E u w /\ encodes E u w b.
Proof. exact alike_writable. Qed.
Print Assumptions C112_writable.
Theorem C112_supported : forall E t v u w, view E t v u w -> supported E t v -> supported E u w.
Proof. exact alike_supported. Qed.
Print Assumptions C112_supported.
Example C112_case : view [] record_ty record tuple_ty tuple /\ supported [] record_ty record /\
  encodes [] record_ty record record_wire.
Proof. exact record_case. Qed.
(** also for messages of other programs *)
Theorem C112_read : forall E t v u w c, view E t v u w -> returns (fun n => from_bytes n E t c) (Ok v) ->
  returns (fun n => from_bytes n E u c) (Ok w).
Proof. exact alike_read. Qed.
Print Assumptions C112_read.
Example C112_case_read : view [] record_ty record tuple_ty tuple /\
  returns (fun n => from_bytes n [] record_ty record_wire) (Ok record).
Proof. exact record_read. Qed.

(** ** C113 Rust types of the same XDR data read the same messages: false *)
Theorem C113_messages_refuted : exists E t v u w c, view E t v u w /\ supported E t v /\
  returns (fun n => from_bytes n E u c) (Ok w) /\ forall x, ~ returns (fun n => from_bytes n E t c) (Ok x).
Proof. exact alike_refuted. Qed.
Print Assumptions C113_messages_refuted.
Example C113_case : view [] switch (RVariant 1 []) TBool (RBool true) /\ supported [] switch (RVariant 1 []) /\
  returns (fun n => from_bytes n [] TBool two) (Ok (RBool true)) /\
  forall v, ~ returns (fun n => from_bytes n [] switch two) (Ok v).
Proof. exact switch_strict. Qed.

(** Missing: messages that the more lenient type takes and no one should write.
    A message written from a value of one of the types is read as the other. *)
Theorem C113_messages_partial : forall E t v u w c, view E t v u w -> supported E t v -> encodes E u w c ->
  encodes E t v c /\ returns (fun n => from_bytes n E t c) (Ok v).
Proof. exact alike_converse. Qed.
Print Assumptions C113_messages_partial.
Example C113_case_messages : view [] record_ty record tuple_ty tuple /\ supported [] record_ty record /\
  encodes [] tuple_ty tuple record_wire.
Proof. exact converse_case. Qed.
(** Types whose values can be read as each other take the same messages. *)
Theorem C113_mutual_partial : forall E t v u w c, view E t v u w -> view E u w t v ->
  returns (fun n => from_bytes n E t c) (Ok v) <-> returns (fun n => from_bytes n E u c) (Ok w).
Proof. exact alike_mutual. Qed.
Print Assumptions C113_mutual_partial.
Example C113_case_mutual : view [] (TBox (TInt true W32)) (RInt (-8388608)) (TNewtype TF32) (RFloat 4286578688) /\
  view [] (TNewtype TF32) (RFloat 4286578688) (TBox (TInt true W32)) (RInt (-8388608)) /\
  returns (fun n => from_bytes n [] (TNewtype TF32) [xff; x80; x00; x00]) (Ok (RFloat 4286578688)).
Proof. exact mutual_case. Qed.
