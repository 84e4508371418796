(** Property theorems about reading messages from a stream (C108). *)
From Verif Require Import Base RustTypes DeModel SpecTypes SpecFrame FrameProofs ExamplesStream ExamplesFrame.
Local Open Scope list_scope.

(** ** C108 NotEnoughData says how many bytes to read: false, the padding is not counted *)
Theorem C108_stream_refuted : exists E t c v m, returns (fun n => from_bytes n E t c) (Ok v) /\
  reading as_said E t [] c Panic (skipn 7 c) m.
Proof. exact said_panics. Qed.
Print Assumptions C108_stream_refuted.
(** Missing: requests that are not rounded up.  Rounded up to whole units they lead to the
    value, take no byte of what follows, and there are at most as many as units. *)
Theorem C108_stream_partial : forall E t c v s, returns (fun n => from_bytes n E t c) (Ok v) ->
  (exists m, reading units E t [] (c ++ s) (Ok v) s m /\ 4 * Z.of_nat m <= zlen c) /\
  forall r s' m, reading units E t [] (c ++ s) r s' m -> r = Ok v /\ s' = s.
Proof. exact framed. Qed.
Print Assumptions C108_stream_partial.
Theorem C108_messages_partial : forall E t s cs vs,
  Forall2 (fun c v => returns (fun n => from_bytes n E t c) (Ok v)) cs vs -> reading_all units E t (concat cs ++ s) vs s.
Proof. exact framed_all. Qed.
Print Assumptions C108_messages_partial.
Example C108_case : Forall2 (fun c v => returns (fun n => from_bytes n [] pair_ty c) (Ok v)) [pair_bytes; pair_bytes]
    [RSeq [RStr [x61; x62; x63]; RInt 7]; RSeq [RStr [x61; x62; x63]; RInt 7]] /\
  reading units [] pair_ty [] (pair_bytes ++ [xff]) (Ok (RSeq [RStr [x61; x62; x63]; RInt 7])) [xff] 3.
Proof. exact pair_framed. Qed.
(** Requests that are not rounded up give the same, or the panic. *)
Theorem C108_unrounded : forall E t c v s, returns (fun n => from_bytes n E t c) (Ok v) ->
  forall r s' m, reading as_said E t [] (c ++ s) r s' m -> r = Ok v /\ s' = s \/ r = Panic.
Proof. exact unrounded. Qed.
Print Assumptions C108_unrounded.
Example C108_case_unrounded : exists E t c v m, returns (fun n => from_bytes n E t c) (Ok v) /\ reading as_said E t [] c Panic (skipn 7 c) m.
Proof. exact said_panics. Qed.
