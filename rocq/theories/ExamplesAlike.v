(** Concrete cases and statements for values of the same XDR data (C112, C113). *)
From Verif Require Import Base SpecUtf8 RustTypes SpecXdr SpecTypes SpecDecode SpecMisc SerModel DeModel CodecProofs ExamplesCodec SpecAlike AlikeProofs.
Set Implicit Arguments.
Unset Strict Implicit.
Local Open Scope string_scope.
Local Open Scope list_scope.
Local Open Scope Z_scope.

Definition switch : ty := TEnum [("OFF", VUnit); ("ON", VUnit)].

(** a struct as rpcgen would write it and a tuple of other types *)
Definition record_ty : ty :=
  TStruct [("id", u64); ("flag", switch); ("tags", TSeq (TTuple [TChar; TInt true W32])); ("name", TSeq TStr)].
Definition record : rval :=
  RSeq [RInt (7 * 2 ^ 32 + 9); RVariant 1 []; RSeq [RSeq [RChar 65; RInt (-1)]]; RSeq [RStr [x62; x63]]].
Definition tuple_ty : ty := TTuple [TTuple [u32; u32]; TBool; TMap u32 u32; TOption TByteBuf].
Definition tuple : rval :=
  RSeq [RSeq [RInt 7; RInt 9]; RBool true; RMap [(RInt 65, RInt 4294967295)]; RSome (RBytes [x62; x63])].
Definition record_wire : list byte :=
  [x00; x00; x00; x07; x00; x00; x00; x09] ++ [x00; x00; x00; x01] ++
  [x00; x00; x00; x01; x00; x00; x00; x41; xff; xff; xff; xff] ++ [x00; x00; x00; x01; x00; x00; x00; x02; x62; x63; x00; x00].

Lemma record_views : view [] record_ty record tuple_ty tuple.
Proof.
  apply vw_product with (ts := [u64; switch; TSeq (TTuple [TChar; TInt true W32]); TSeq TStr])
    (us := [TTuple [u32; u32]; TBool; TMap u32 u32; TOption TByteBuf]); [exact (pr_struct [("id", u64); ("flag", switch); ("tags", TSeq (TTuple [TChar; TInt true W32])); ("name", TSeq TStr)])|constructor|].
  constructor; [exact (vw_halves [] (7 * 2 ^ 32 + 9))|]. constructor; [now apply vw_true with "ON"|].
  constructor; [|constructor; [|constructor]].
  - apply vw_trans with (u := TSeq (TTuple [u32; u32])) (w := RSeq [RSeq [RInt 65; RInt 4294967295]]).
    + apply vw_seq. constructor; [|constructor]. apply vw_product with (ts := [TChar; TInt true W32]) (us := [u32; u32]); [constructor|constructor|].
      constructor; [apply vw_char|]. constructor; [|constructor]. apply vw_sign; [now left|easy|reflexivity].
    + apply (@vw_map [] u32 u32 [(RInt 65, RInt 4294967295)]). cbn. constructor; [easy|constructor].
  - apply vw_trans with (u := TOption TStr) (w := RSome (RStr [x62; x63])); [apply vw_element|]. apply vw_some. apply vw_text.
Qed.
Lemma record_supported : supported [] record_ty record.
Proof.
  eexists. constructor. constructor; [constructor; [|reflexivity]|].
  - unfold int_range. cbn [bits]. lia.
  - constructor; [now apply dn_unit_variant with "ON"|].
    constructor; [|constructor; [|constructor]].
    + constructor; [reflexivity|]. constructor; [|constructor]. constructor.
      constructor; [constructor; unfold is_scalar; lia|]. constructor; [|constructor]. constructor; [|reflexivity].
      unfold int_range. cbn [bits]. lia.
    + constructor; [reflexivity|]. constructor; [|constructor]. constructor; [|reflexivity]. exact valid_ab.
Qed.
Lemma record_case : view [] record_ty record tuple_ty tuple /\ supported [] record_ty record /\
  encodes [] record_ty record record_wire.
Proof.
  split; [exact record_views|]. split; [exact record_supported|].
  split; [discriminate|]. exists 10%nat. intros n L. do 10 (destruct n as [|n]; [lia|]). reflexivity.
Qed.
Lemma record_read : view [] record_ty record tuple_ty tuple /\ returns (fun n => from_bytes n [] record_ty record_wire) (Ok record).
Proof.
  split; [exact record_views|]. destruct record_case as (_ & S & T). apply from_bytes_accepted. now apply supported_accepts.
Qed.

(** words that one of two alike types takes and the other does not *)
Definition two : list byte := [x00; x00; x00; x02].
Lemma switch_strict : view [] switch (RVariant 1 []) TBool (RBool true) /\ supported [] switch (RVariant 1 []) /\
  returns (fun n => from_bytes n [] TBool two) (Ok (RBool true)) /\
  forall v, ~ returns (fun n => from_bytes n [] switch two) (Ok v).
Proof.
  split; [now apply vw_true with "ON"|]. split; [eexists; now apply dn_unit_variant with "ON"|]. split.
  - split; [discriminate|]. exists 1%nat. intros n L. destruct n; [lia|reflexivity].
  - intros v [_ [N H]]. specialize (H (Datatypes.S N) ltac:(lia)). discriminate.
Qed.
Lemma alike_refuted : exists E t v u w c, view E t v u w /\ supported E t v /\
  returns (fun n => from_bytes n E u c) (Ok w) /\ forall x, ~ returns (fun n => from_bytes n E t c) (Ok x).
Proof. exists [], switch, (RVariant 1 []), TBool, (RBool true), two. exact switch_strict. Qed.

Lemma alike_mutual E t v u w c : view E t v u w -> view E u w t v ->
  returns (fun n => from_bytes n E t c) (Ok v) <-> returns (fun n => from_bytes n E u c) (Ok w).
Proof. intros V V'. split; now apply alike_read. Qed.

(** a signed number in a box and a float in a newtype *)
Lemma mutual_case : view [] (TBox (TInt true W32)) (RInt (-8388608)) (TNewtype TF32) (RFloat 4286578688) /\
  view [] (TNewtype TF32) (RFloat 4286578688) (TBox (TInt true W32)) (RInt (-8388608)) /\
  returns (fun n => from_bytes n [] (TNewtype TF32) [xff; x80; x00; x00]) (Ok (RFloat 4286578688)).
Proof.
  split; [|split].
  - eapply vw_trans; [apply vw_unbox|]. eapply vw_trans; [|apply vw_newtype]. eapply vw_trans; [|apply vw_bits].
    apply vw_sign; [now left|easy|reflexivity].
  - eapply vw_trans; [apply vw_content|]. eapply vw_trans; [|apply vw_box]. eapply vw_trans; [apply vw_float|].
    apply vw_sign; [now left|easy|reflexivity].
  - split; [discriminate|]. exists 2%nat. intros n L. do 2 (destruct n; [lia|]). reflexivity.
Qed.
Lemma converse_case : view [] record_ty record tuple_ty tuple /\ supported [] record_ty record /\
  encodes [] tuple_ty tuple record_wire.
Proof.
  destruct record_case as (V & S & T). split; [exact V|]. split; [exact S|]. exact (proj1 (alike_written V S T)).
Qed.
