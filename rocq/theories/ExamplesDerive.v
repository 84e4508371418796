(** Concrete enums for the theorems about the derive macros. *)
From Verif Require Import Base SpecUtf8 SerModel RustTypes DeModel SpecXdr SpecTypes SpecMisc CodecProofs CodecLemmas DeriveModel DeriveProofs DeriveLemmas.
Local Open Scope string_scope.
Local Open Scope list_scope.

Definition shape : list (string * fields) := [("Point", FUnit); ("Box", FUnnamed [TInt true W32; TBool])].
Definition shape_ser := [SerArm "Point" [] []; SerArm "Box" [Arg 0; Arg 1] [Arg 0; Arg 1]].
Definition shape_de := [DeArm "Point" [] []; DeArm "Box" [(Ret 0, TInt true W32); (Ret 1, TBool)] [Ret 0; Ret 1]].
Lemma shape_indexer : xdr_indexer (ItemEnum shape) = Some (shape_ser, shape_de).
Proof. reflexivity. Qed.
Lemma shape_reads :
  (s <- indexer_serialize 2 [] shape shape_ser [("Point", 4); ("Box", -1)] 1 [RInt 7; RBool true];; to_bytes_calls s)
    = Ok (be_bytes 4 4294967295 ++ be_bytes 4 7 ++ be_bytes 4 1) /\
  indexer_deserialize 2 [] shape shape_de [(4, "Point"); (-1, "Box")] DErr (be_bytes 4 4294967295 ++ be_bytes 4 7 ++ be_bytes 4 1 ++ [x61])
    = Ok (RVariant 1 [RInt 7; RBool true], [x61]).
Proof. split; vm_compute; reflexivity. Qed.

Definition shape_uni_de := [DeArm "Point" [] []; DeArm "Box" [(Ret 1, TBool)] [Value; Ret 1]].
Lemma shape_union : xdr_union (ItemEnum shape) = Some (shape_ser, shape_uni_de, TInt true W32).
Proof. reflexivity. Qed.
Lemma shape_union_reads :
  (s <- union_serialize 2 [] shape shape_ser 1 [RInt 7; RBool true];; to_bytes_calls s) = Ok (be_bytes 4 7 ++ be_bytes 4 1) /\
  union_deserialize 2 [] shape shape_uni_de (TInt true W32) [(RInt 0, "Point")] (DVal "Box") (be_bytes 4 7 ++ be_bytes 4 1 ++ [x61])
    = Ok (RVariant 1 [RInt 7; RBool true], [x61]) /\
  (s <- union_serialize 2 [] shape shape_ser 0 [];; to_bytes_calls s) = Ok [].
Proof. repeat split; vm_compute; reflexivity. Qed.

Lemma ten_bools : Forall2 (supported []) (repeat TBool 10) (repeat (RBool true) 10) /\
  encodes_all [] (repeat TBool 10) (repeat (RBool true) 10) (concat (repeat (be_bytes 4 1) 10)).
Proof.
  split; [cbn; repeat constructor; eexists; constructor|].
  assert (H : forall k, encodes_all [] (repeat TBool k) (repeat (RBool true) k) (concat (repeat (be_bytes 4 1) k))).
  { induction k as [|k IH]; cbn [repeat concat]; [constructor|]. apply enc_cons; [|exact IH]. apply (@returns_to_bytes 2); [vm_compute; reflexivity|discriminate]. }
  exact (H 10%nat).
Qed.
