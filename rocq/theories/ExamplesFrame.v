(** Concrete cases for reading from a stream (C108). *)
From Verif Require Import Base SpecUtf8 RustTypes SerModel DeModel SpecXdr SpecTypes SpecMisc XdrFacts ReadFacts EncProofs DecProofs CodecProofs CodecLemmas StreamProofs
  SpecFrame FrameProofs ExamplesStream.
Set Implicit Arguments.
Unset Strict Implicit.
Local Open Scope list_scope.

Ltac ret := apply returns_from_bytes with 3%nat; [reflexivity|discriminate].
(** "abc" and 7, asked for in the numbers of bytes that NotEnoughData gives *)
Lemma said_panics : exists E t c v m, returns (fun n => from_bytes n E t c) (Ok v) /\ reading as_said E t [] c Panic (skipn 7 c) m.
Proof.
  exists [], pair_ty, pair_bytes, (RSeq [RStr [x61; x62; x63]; RInt 7]), 2%nat. split; [exact pair_reads|].
  apply (@re_more as_said [] pair_ty [] (firstn 4 pair_bytes) (skipn 4 pair_bytes) 4); [ret|reflexivity|].
  apply (@re_more as_said [] pair_ty (firstn 4 pair_bytes) (firstn 3 (skipn 4 pair_bytes)) (skipn 7 pair_bytes) 3); [ret|reflexivity|].
  apply re_end; [ret|discriminate].
Qed.
(** the same two messages one after the other, with units *)
Lemma pair_framed : Forall2 (fun c v => returns (fun n => from_bytes n [] pair_ty c) (Ok v)) [pair_bytes; pair_bytes]
    [RSeq [RStr [x61; x62; x63]; RInt 7]; RSeq [RStr [x61; x62; x63]; RInt 7]] /\
  reading units [] pair_ty [] (pair_bytes ++ [xff]) (Ok (RSeq [RStr [x61; x62; x63]; RInt 7])) [xff] 3.
Proof.
  split; [apply Forall2_cons; [exact pair_reads|apply Forall2_cons; [exact pair_reads|apply Forall2_nil]]|].
  apply (@re_more units [] pair_ty [] (firstn 4 pair_bytes) (skipn 4 pair_bytes ++ [xff]) 4); [ret|reflexivity|].
  apply (@re_more units [] pair_ty (firstn 4 pair_bytes) (firstn 4 (skipn 4 pair_bytes)) (skipn 8 pair_bytes ++ [xff]) 3); [ret|reflexivity|].
  apply (@re_more units [] pair_ty (firstn 8 pair_bytes) (skipn 8 pair_bytes) [xff] 8); [ret|reflexivity|].
  apply re_end; [ret|discriminate].
Qed.
