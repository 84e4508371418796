(** Concrete cases for the inputs on which the decoder panics (C09). *)
From Verif Require Import Base SpecUtf8 RustTypes SpecXdr SpecTypes SpecDecode SpecMisc DeModel DecProofs CodecProofs ExamplesCodec SpecAlike SpecPanic PanicProofs.
Set Implicit Arguments.
Unset Strict Implicit.
Local Open Scope string_scope.
Local Open Scope list_scope.
Local Open Scope Z_scope.

(** two pairs of a number and a string, without the last byte *)
Definition pairs_ty : ty := TSeq (TTuple [u32; TStr]).
Definition pairs_cut : list byte :=
  [x00; x00; x00; x02] ++ [x00; x00; x00; x07; x00; x00; x00; x02; x62; x63; x00; x00] ++
  [x00; x00; x00; x08] ++ [x00; x00; x00; x01] ++ [x62] ++ [x00; x00].

(** a derived enum of one variant with eleven fields *)
Definition eleven : ty := TIndexer [("A", repeat (TInt false W8) 11)] [("A", 0)] [(0, "A")] DErr.
Definition eleven_input : list byte := repeat x00 40.

(** a lookup function that panics for false *)
Definition moody : ty := TUnion [("A", Some [TBool])] TBool [(RBool true, "A")] DPanic.

Lemma pairs_panics : panics [] pairs_ty pairs_cut.
Proof.
  apply (@pn_seq [] (TTuple [u32; TStr]) _ 2 [RSeq [RInt 7; RStr [x62; x63]]]); [easy|easy| |].
  - change [x00; x00; x00; x07; x00; x00; x00; x02; x62; x63; x00; x00]
      with (([x00; x00; x00; x07] ++ ([x00; x00; x00; x02] ++ [x62; x63] ++ [x00; x00]) ++ []) ++ []).
    constructor; [|constructor]. constructor. constructor; [|constructor; [|constructor]].
    + now apply ac_int with 7.
    + constructor; [easy|easy|exact valid_ab].
  - apply pn_product with [u32; TStr]; [constructor|]. apply pi_later with (RInt 8); [now apply ac_int with 8|].
    apply pi_here. apply pn_str with [x00]; [easy|apply ascii_valid; easy|easy|easy].
Qed.
Lemma eleven_panics : panics [] eleven eleven_input.
Proof.
  apply (@pn_indexer [] _ _ _ _ 0 [x00; x00; x00; x00] "A" 0 (repeat (TInt false W8) 11) (repeat x00 36));
    [split; [easy|left; easy]|easy| |].
  - split; [easy|]. intros j b L. lia.
  - apply (@pt_tenth [] (repeat (TInt false W8) 11) (repeat (RInt 0) 9) (repeat x00 36) []); [cbn; lia|]. cbn [repeat firstn].
    assert (A : accepts [] (TInt false W8) (RInt 0) [x00; x00; x00; x00]) by now apply ac_int with 0.
    do 9 (apply (@ac_cons [] _ _ _ _ [x00; x00; x00; x00]); [exact A|]). constructor.
Qed.
Lemma moody_panics r : panics [] moody ([x00; x00; x00; x00] ++ r).
Proof. apply pn_union_table with (RBool false); [now constructor|easy]. Qed.
Lemma panic_cases : panics [] pairs_ty pairs_cut /\ panics [] eleven eleven_input /\ panics [] moody [x00; x00; x00; x00] /\
  ~ panics [] pairs_ty (pairs_cut ++ [x00]).
Proof.
  split; [exact pairs_panics|]. split; [exact eleven_panics|]. split; [exact (moody_panics [])|].
  intros P. apply panic_exact in P as [_ [N H]]. specialize (H (Datatypes.S (Datatypes.S (Datatypes.S N))) ltac:(lia)). discriminate.
Qed.
