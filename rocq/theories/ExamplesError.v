(** Concrete cases for the errors of the decoder (C114). *)
From Verif Require Import Base SpecUtf8 Utf8 Utf8Proofs RustTypes SpecXdr SpecTypes SpecDecode SpecMisc DeModel DecProofs CodecProofs ExamplesCodec SpecAlike SpecPanic PanicProofs SpecError ErrorProofs.
Set Implicit Arguments.
Unset Strict Implicit.
Local Open Scope string_scope.
Local Open Scope list_scope.
Local Open Scope Z_scope.

(** a count and a string; the string is not UTF-8 and its padding is missing *)
Definition bad_text : ty := TStruct [("n", u32); ("s", TStr)].
Definition bad_text_input : list byte := [x00; x00; x00; x07] ++ [x00; x00; x00; x02] ++ [x61; xff].
(** two choices of one; the second has the number seven *)
Definition choices : ty := TSeq (TEnum [("A", VNewtype u32)]).
Definition choices_input : list byte :=
  [x00; x00; x00; x03] ++ [x00; x00; x00; x00; x00; x00; x00; x09] ++ [x00; x00; x00; x07].
(** nine bytes of opaque data, of which five are there: three of the next unit are missing *)
Definition nine : ty := TNewtype (TOpaqueFixed 9).
Definition nine_input : list byte := [x01; x02; x03; x04; x05].

Lemma bad_text_fails : reports [] bad_text bad_text_input EEncoding.
Proof.
  apply rp_inside. apply fl_product with [u32; TStr]; [exact (pr_struct [("n", u32); ("s", TStr)])|].
  apply fi_later with (RInt 7); [now apply ac_int with 7|]. apply fi_here.
  change ([x00; x00; x00; x02] ++ [x61; xff]) with ([x00; x00; x00; x02] ++ [x61; xff] ++ []). apply fl_utf8; [easy|].
  intros V. apply utf8_ok_spec in V. discriminate.
Qed.
Lemma choices_fail : reports [] choices choices_input (ECustom (MInvalidVariant 7)).
Proof.
  apply rp_inside. apply (@fl_seq [] (TEnum [("A", VNewtype u32)]) _ 3 [RVariant 0 [RInt 9]]); [easy|easy| |].
  - change [x00; x00; x00; x00; x00; x00; x00; x09] with (([x00; x00; x00; x00] ++ [x00; x00; x00; x09]) ++ []).
    constructor; [|constructor]. eapply ac_newtype_variant; [|easy|reflexivity|now apply ac_int with 9]. easy.
  - apply (@fl_no_variant [] _ 7 [x00; x00; x00; x07] []); [split; [easy|left; easy]|easy].
Qed.
Lemma nine_fails : reports [] nine nine_input (ENotEnoughData 3).
Proof.
  apply rp_inside. apply fl_newtype. apply (@fl_fopaque [] 9 nine_input). exists 12. easy.
Qed.
Lemma rest_fails : reports [] TBool [x00; x00; x00; x01; x00; x00] (ETrailingData 2).
Proof.
  apply (@rp_trailing [] TBool (RBool true) [x00; x00; x00; x01] [x00; x00]); [now apply ac_true with 1|discriminate].
Qed.
Lemma error_cases : reports [] bad_text bad_text_input EEncoding /\ reports [] choices choices_input (ECustom (MInvalidVariant 7)) /\
  reports [] nine nine_input (ENotEnoughData 3) /\ reports [] TBool [x00; x00; x00; x01; x00; x00] (ETrailingData 2) /\
  forall e, ~ reports [] nine (nine_input ++ repeat x00 7) e.
Proof.
  split; [exact bad_text_fails|]. split; [exact choices_fail|]. split; [exact nine_fails|]. split; [exact rest_fails|].
  intros e P. apply error_exact in P as [_ [N H]]. specialize (H (Datatypes.S (Datatypes.S (Datatypes.S N))) ltac:(lia)). discriminate.
Qed.
