(** Concrete cases for the theorems about incomplete and overlong inputs. *)
From Verif Require Import Base SpecUtf8 RustTypes SerModel DeModel SpecXdr SpecTypes SpecMisc XdrFacts ReadFacts EncProofs DecProofs CodecProofs CodecLemmas StreamProofs.
Set Implicit Arguments.
Unset Strict Implicit.
Local Open Scope list_scope.

(** a struct { x: String, y: u64 } cut inside y *)
Definition pair_ty : ty := TStruct [("x"%string, TStr); ("y"%string, TInt false W64)].
Definition pair_bytes : list byte := [x00; x00; x00; x03; x61; x62; x63; x00; x00; x00; x00; x00; x00; x00; x00; x07].
Lemma pair_reads : returns (fun n => from_bytes n [] pair_ty pair_bytes) (Ok (RSeq [RStr [x61; x62; x63]; RInt 7])).
Proof. apply returns_from_bytes with 3%nat; easy. Qed.
Lemma pair_cut : from_bytes 3 [] pair_ty (firstn 11 pair_bytes) = Err (ENotEnoughData 5) /\
  from_bytes 3 [] pair_ty (firstn 13 pair_bytes) = Err (ENotEnoughData 3).
Proof. split; reflexivity. Qed.
Lemma pair_more : from_bytes 3 [] pair_ty (pair_bytes ++ [x00; x00]) = Err (ETrailingData 2).
Proof. reflexivity. Qed.
(** a byte that is not UTF-8 *)
Lemma pair_encoding : from_bytes 3 [] pair_ty [x00; x00; x00; x01; xff] = Err EEncoding.
Proof. reflexivity. Qed.
(** cut inside the padding *)
Lemma padding_cut : exists E t p q v, returns (fun n => from_bytes n E t (p ++ q)) (Ok v) /\ q <> [] /\
  returns (fun n => from_bytes n E t p) Panic.
Proof.
  exists [], pair_ty, (firstn 7 pair_bytes), (skipn 7 pair_bytes), (RSeq [RStr [x61; x62; x63]; RInt 7]).
  split; [exact pair_reads|]. split; [discriminate|]. apply returns_from_bytes with 3%nat; easy.
Qed.
