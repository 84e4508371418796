(** The unit tests of serde-xdr/src/lib.rs (lines 24-829) and of
    serde-xdr-test/src/lib.rs replayed on the model, in their order and with
    their names.  They are no proofs; they check the model against the
    behaviour that the project's own tests record. *)
From Verif Require Import Base SerModel RustTypes DeModel DeriveModel.
Local Open Scope string_scope.
Local Open Scope list_scope.

(** [from_bytes(&v).unwrap()] and [to_bytes(&v).unwrap()] *)
Definition reads (t : ty) (bs : list byte) (v : rval) : Prop := from_bytes 5 [] t bs = Ok v.
Definition writes (t : ty) (v : rval) (bs : list byte) : Prop := to_bytes 5 [] t v = Ok bs.

(** ** Types of the tests; serde-xdr/src/lib.rs:30-105, 442-516 *)
Definition u8 := TInt false W8.
Definition u32 := TInt false W32.
Definition i32 := TInt true W32.
Definition unit_variant := TEnum [("A", VUnit)].
Definition newtype_variant := TEnum [("A", VNewtype u8)].
Definition tuple_struct := TTupleStruct [u8; u8].
Definition tuple_variant := TEnum [("A", VTuple [u8; u8])].
Definition struct_ := TStruct [("a", u8); ("b", u8)].
Definition struct_variant := TEnum [("A", VStruct [("a", u8); ("b", u8)])].
Definition array_struct := TStruct [("a", TArray 2 u8)].
Definition fixed_opaque_struct := TStruct [("a", TOpaqueFixed 2)].
Definition variable_opaque_struct := TStruct [("a", TOpaqueVar)].
Definition variable_opaque_array := TStruct [("a", TSeq TVariableArray)].
Definition custom_enum_struct := TStruct [("a", TSigned32 [3] [(3, 0%nat)] DPanic)].
Definition ints (l : list Z) : rval := RSeq (map RInt l).
Definition three_arrays := RSeq [RSeq [RSeq [RBytes [x00]]; RSeq [RBytes [x01; x02]]; RSeq [RBytes [x01; x02; x03]]]].


(** ** from_bytes; serde-xdr/src/lib.rs:107-431 *)
Example from_bytes_bool : reads TBool [x00; x00; x00; x00] (RBool false) /\ reads TBool [x00; x00; x00; x01] (RBool true).
Proof. repeat split; vm_compute; reflexivity. Qed.
Example from_bytes_i8 : reads (TInt true W8) [x00; x00; x00; x00] (RInt (0)) /\ reads (TInt true W8) [xff; xff; xff; x80] (RInt (-128)) /\ reads (TInt true W8) [x00; x00; x00; x7f] (RInt (127)).
Proof. repeat split; vm_compute; reflexivity. Qed.
Example from_bytes_i16 : reads (TInt true W16) [x00; x00; x00; x00] (RInt (0)) /\ reads (TInt true W16) [xff; xff; x80; x00] (RInt (-32768)) /\ reads (TInt true W16) [x00; x00; x7f; xff] (RInt (32767)).
Proof. repeat split; vm_compute; reflexivity. Qed.
Example from_bytes_i32 : reads (TInt true W32) [x00; x00; x00; x00] (RInt (0)) /\ reads (TInt true W32) [x80; x00; x00; x00] (RInt (-2147483648)) /\ reads (TInt true W32) [x7f; xff; xff; xff] (RInt (2147483647)).
Proof. repeat split; vm_compute; reflexivity. Qed.
Example from_bytes_i64 : reads (TInt true W64) [x00; x00; x00; x00; x00; x00; x00; x00] (RInt (0)) /\ reads (TInt true W64) [x80; x00; x00; x00; x00; x00; x00; x00] (RInt (-9223372036854775808)) /\ reads (TInt true W64) [x7f; xff; xff; xff; xff; xff; xff; xff] (RInt (9223372036854775807)).
Proof. repeat split; vm_compute; reflexivity. Qed.
Example from_bytes_u8 : reads (TInt false W8) [x00; x00; x00; x00] (RInt (0)) /\ reads (TInt false W8) [x00; x00; x00; xff] (RInt (255)).
Proof. repeat split; vm_compute; reflexivity. Qed.
Example from_bytes_u16 : reads (TInt false W16) [x00; x00; x00; x00] (RInt (0)) /\ reads (TInt false W16) [x00; x00; xff; xff] (RInt (65535)).
Proof. repeat split; vm_compute; reflexivity. Qed.
Example from_bytes_u32 : reads (TInt false W32) [x00; x00; x00; x00] (RInt (0)) /\ reads (TInt false W32) [xff; xff; xff; xff] (RInt (4294967295)).
Proof. repeat split; vm_compute; reflexivity. Qed.
Example from_bytes_u64 : reads (TInt false W64) [x00; x00; x00; x00; x00; x00; x00; x00] (RInt (0)) /\ reads (TInt false W64) [xff; xff; xff; xff; xff; xff; xff; xff] (RInt (18446744073709551615)).
Proof. repeat split; vm_compute; reflexivity. Qed.
Example from_bytes_f32 : reads TF32 [x00; x00; x00; x00] (RFloat 0) /\ reads TF32 [x41; x48; x00; x00] (RFloat 0x41480000).
Proof. repeat split; vm_compute; reflexivity. Qed.
Example from_bytes_f64 : reads TF64 [x00; x00; x00; x00; x00; x00; x00; x00] (RFloat 0) /\ reads TF64 [x40; x29; x00; x00; x00; x00; x00; x00] (RFloat 0x4029000000000000).
Proof. repeat split; vm_compute; reflexivity. Qed.
Example from_bytes_char : reads TChar [x00; x00; x00; x61] (RChar 97) /\ reads TChar [x00; x00; x30; x42] (RChar 0x3042).
Proof. repeat split; vm_compute; reflexivity. Qed.
Example from_bytes_string : reads TStr [x00; x00; x00; x01; x61; x00; x00; x00] (RStr [x61]) /\ reads TStr [x00; x00; x00; x03; xe3; x81; x82; x00] (RStr [xe3; x81; x82]) /\ reads TStr [x00; x00; x00; x04; x61; x62; x63; x64] (RStr [x61; x62; x63; x64]).
Proof. repeat split; vm_compute; reflexivity. Qed.
Example from_bytes_option : reads (TOption u32) [x00; x00; x00; x00] RNone /\ reads (TOption u32) [x00; x00; x00; x01; x00; x00; x00; x01] (RSome (RInt 1)).
Proof. repeat split; vm_compute; reflexivity. Qed.
Example from_bytes_unit : reads TUnit [] RUnit.
Proof. vm_compute; reflexivity. Qed.
Example from_bytes_unit_struct : reads TUnitStruct [] RUnit.
Proof. vm_compute; reflexivity. Qed.
Example from_bytes_newtype_struct : reads (TNewtype u8) [x00; x00; x00; x01] (RInt 1).
Proof. vm_compute; reflexivity. Qed.
Example from_bytes_seq : reads (TSeq u32) [x00; x00; x00; x03; x00; x00; x00; x01; x00; x00; x00; x02; x00; x00; x00; x03] (ints [1; 2; 3]).
Proof. vm_compute; reflexivity. Qed.
Example from_bytes_tuple : reads (TTuple [u32; u32; u32]) [x00; x00; x00; x01; x00; x00; x00; x02; x00; x00; x00; x03] (ints [1; 2; 3]).
Proof. vm_compute; reflexivity. Qed.
Example from_bytes_tuple_struct : reads tuple_struct [x00; x00; x00; x01; x00; x00; x00; x02] (ints [1; 2]).
Proof. vm_compute; reflexivity. Qed.
Example from_bytes_map : reads (TMap u32 u32) [x00; x00; x00; x01; x00; x00; x00; x01; x00; x00; x00; x02] (RMap [(RInt 1, RInt 2)]).
Proof. vm_compute; reflexivity. Qed.
Example from_bytes_struct : reads struct_ [x00; x00; x00; x01; x00; x00; x00; x02] (ints [1; 2]).
Proof. vm_compute; reflexivity. Qed.
Example from_bytes_enum_unit_variant : reads unit_variant [x00; x00; x00; x00] (RVariant 0 []).
Proof. vm_compute; reflexivity. Qed.
Example from_bytes_enum_newtype_variant : reads newtype_variant [x00; x00; x00; x00; x00; x00; x00; x01] (RVariant 0 [RInt 1]).
Proof. vm_compute; reflexivity. Qed.
Example from_bytes_enum_tuple_variant : reads tuple_variant [x00; x00; x00; x00; x00; x00; x00; x01; x00; x00; x00; x02] (RVariant 0 [RInt 1; RInt 2]).
Proof. vm_compute; reflexivity. Qed.
Example from_bytes_enum_struct_variant : reads struct_variant [x00; x00; x00; x00; x00; x00; x00; x01; x00; x00; x00; x02] (RVariant 0 [RInt 1; RInt 2]).
Proof. vm_compute; reflexivity. Qed.
Example from_bytes_array_struct : reads array_struct [x00; x00; x00; x01; x00; x00; x00; x02] (RSeq [ints [1; 2]]).
Proof. vm_compute; reflexivity. Qed.
Example from_bytes_fixed_opaque_struct : reads fixed_opaque_struct [x01; x02; x00; x00] (RSeq [RBytes [x01; x02]]).
Proof. vm_compute; reflexivity. Qed.
Example from_bytes_variable_opaque_struct : reads variable_opaque_struct [x00; x00; x00; x02; x01; x02; x00; x00] (RSeq [RBytes [x01; x02]]).
Proof. vm_compute; reflexivity. Qed.
Example from_bytes_variable_opaque_array : reads variable_opaque_array [x00; x00; x00; x03; x00; x00; x00; x01; x00; x00; x00; x00; x00; x00; x00; x02; x01; x02; x00; x00; x00; x00; x00; x03; x01; x02; x03; x00] three_arrays.
Proof. vm_compute; reflexivity. Qed.
Example from_bytes_custom_enum_struct : reads custom_enum_struct [x00; x00; x00; x03] (RSeq [RVariant 0 []]).
Proof. vm_compute; reflexivity. Qed.

(** ** to_bytes; serde-xdr/src/lib.rs:518-828 *)
Example to_bytes_bool : writes TBool (RBool false) [x00; x00; x00; x00] /\ writes TBool (RBool true) [x00; x00; x00; x01].
Proof. repeat split; vm_compute; reflexivity. Qed.
Example to_bytes_i8 : writes (TInt true W8) (RInt (0)) [x00; x00; x00; x00] /\ writes (TInt true W8) (RInt (-128)) [xff; xff; xff; x80] /\ writes (TInt true W8) (RInt (127)) [x00; x00; x00; x7f].
Proof. repeat split; vm_compute; reflexivity. Qed.
Example to_bytes_i16 : writes (TInt true W16) (RInt (0)) [x00; x00; x00; x00] /\ writes (TInt true W16) (RInt (-32768)) [xff; xff; x80; x00] /\ writes (TInt true W16) (RInt (32767)) [x00; x00; x7f; xff].
Proof. repeat split; vm_compute; reflexivity. Qed.
Example to_bytes_i32 : writes (TInt true W32) (RInt (0)) [x00; x00; x00; x00] /\ writes (TInt true W32) (RInt (-2147483648)) [x80; x00; x00; x00] /\ writes (TInt true W32) (RInt (2147483647)) [x7f; xff; xff; xff].
Proof. repeat split; vm_compute; reflexivity. Qed.
Example to_bytes_i64 : writes (TInt true W64) (RInt (0)) [x00; x00; x00; x00; x00; x00; x00; x00] /\ writes (TInt true W64) (RInt (-9223372036854775808)) [x80; x00; x00; x00; x00; x00; x00; x00] /\ writes (TInt true W64) (RInt (9223372036854775807)) [x7f; xff; xff; xff; xff; xff; xff; xff].
Proof. repeat split; vm_compute; reflexivity. Qed.
Example to_bytes_u8 : writes (TInt false W8) (RInt (0)) [x00; x00; x00; x00] /\ writes (TInt false W8) (RInt (255)) [x00; x00; x00; xff].
Proof. repeat split; vm_compute; reflexivity. Qed.
Example to_bytes_u16 : writes (TInt false W16) (RInt (0)) [x00; x00; x00; x00] /\ writes (TInt false W16) (RInt (65535)) [x00; x00; xff; xff].
Proof. repeat split; vm_compute; reflexivity. Qed.
Example to_bytes_u32 : writes (TInt false W32) (RInt (0)) [x00; x00; x00; x00] /\ writes (TInt false W32) (RInt (4294967295)) [xff; xff; xff; xff].
Proof. repeat split; vm_compute; reflexivity. Qed.
Example to_bytes_u64 : writes (TInt false W64) (RInt (0)) [x00; x00; x00; x00; x00; x00; x00; x00] /\ writes (TInt false W64) (RInt (18446744073709551615)) [xff; xff; xff; xff; xff; xff; xff; xff].
Proof. repeat split; vm_compute; reflexivity. Qed.
Example to_bytes_f32 : writes TF32 (RFloat 0) [x00; x00; x00; x00] /\ writes TF32 (RFloat 0x41480000) [x41; x48; x00; x00].
Proof. repeat split; vm_compute; reflexivity. Qed.
Example to_bytes_f64 : writes TF64 (RFloat 0) [x00; x00; x00; x00; x00; x00; x00; x00] /\ writes TF64 (RFloat 0x4029000000000000) [x40; x29; x00; x00; x00; x00; x00; x00].
Proof. repeat split; vm_compute; reflexivity. Qed.
Example to_bytes_char : writes TChar (RChar 97) [x00; x00; x00; x61] /\ writes TChar (RChar 0x3042) [x00; x00; x30; x42].
Proof. repeat split; vm_compute; reflexivity. Qed.
Example to_bytes_str : writes TStr (RStr [x61]) [x00; x00; x00; x01; x61; x00; x00; x00] /\ writes TStr (RStr [xe3; x81; x82]) [x00; x00; x00; x03; xe3; x81; x82; x00] /\ writes TStr (RStr [x61; x62; x63; x64]) [x00; x00; x00; x04; x61; x62; x63; x64].
Proof. repeat split; vm_compute; reflexivity. Qed.
Example to_bytes_bytes : writes TByteBuf (RBytes [x61]) [x00; x00; x00; x01; x61; x00; x00; x00].
Proof. vm_compute; reflexivity. Qed.
Example to_bytes_none : writes (TOption u8) RNone [x00; x00; x00; x00].
Proof. vm_compute; reflexivity. Qed.
Example to_bytes_some : writes (TOption u8) (RSome (RInt 2)) [x00; x00; x00; x01; x00; x00; x00; x02].
Proof. vm_compute; reflexivity. Qed.
Example to_bytes_unit : writes TUnit RUnit [].
Proof. vm_compute; reflexivity. Qed.
Example to_bytes_unit_variant : writes unit_variant (RVariant 0 []) [x00; x00; x00; x00].
Proof. vm_compute; reflexivity. Qed.
Example to_bytes_new_type_struct : writes (TNewtype u8) (RInt 1) [x00; x00; x00; x01].
Proof. vm_compute; reflexivity. Qed.
Example to_bytes_new_type_variant : writes newtype_variant (RVariant 0 [RInt 1]) [x00; x00; x00; x00; x00; x00; x00; x01].
Proof. vm_compute; reflexivity. Qed.
Example to_bytes_opaque : writes (TArray 2 u8) (ints [0; 0]) [x00; x00; x00; x00; x00; x00; x00; x00].
Proof. vm_compute; reflexivity. Qed.
Example to_bytes_seq : writes (TSeq (TNewtype u8)) (ints [0; 1]) [x00; x00; x00; x02; x00; x00; x00; x00; x00; x00; x00; x01].
Proof. vm_compute; reflexivity. Qed.
Example to_bytes_tuple : writes (TTuple [i32; i32]) (ints [0; 1]) [x00; x00; x00; x00; x00; x00; x00; x01] /\ writes (TArray 2 u32) (ints [1; 2]) [x00; x00; x00; x01; x00; x00; x00; x02].
Proof. repeat split; vm_compute; reflexivity. Qed.
Example to_bytes_tuple_struct : writes tuple_struct (ints [0; 1]) [x00; x00; x00; x00; x00; x00; x00; x01].
Proof. vm_compute; reflexivity. Qed.
Example to_bytes_tuple_variant : writes tuple_variant (RVariant 0 [RInt 0; RInt 1]) [x00; x00; x00; x00; x00; x00; x00; x00; x00; x00; x00; x01].
Proof. vm_compute; reflexivity. Qed.
Example to_bytes_map : writes (TMap i32 i32) (RMap [(RInt 1, RInt 2)]) [x00; x00; x00; x01; x00; x00; x00; x01; x00; x00; x00; x02].
Proof. vm_compute; reflexivity. Qed.
Example to_bytes_struct : writes struct_ (ints [1; 2]) [x00; x00; x00; x01; x00; x00; x00; x02].
Proof. vm_compute; reflexivity. Qed.
Example to_bytes_struct_variant : writes struct_variant (RVariant 0 [RInt 1; RInt 2]) [x00; x00; x00; x00; x00; x00; x00; x01; x00; x00; x00; x02].
Proof. vm_compute; reflexivity. Qed.
Example to_bytes_array_struct : writes array_struct (RSeq [ints [1; 2]]) [x00; x00; x00; x01; x00; x00; x00; x02].
Proof. vm_compute; reflexivity. Qed.
Example to_bytes_fixed_opaque_struct : writes fixed_opaque_struct (RSeq [RBytes [x01; x02]]) [x01; x02; x00; x00].
Proof. vm_compute; reflexivity. Qed.
Example to_bytes_variable_opaque_struct : writes variable_opaque_struct (RSeq [RBytes [x01; x02]]) [x00; x00; x00; x02; x01; x02; x00; x00].
Proof. vm_compute; reflexivity. Qed.
Example to_bytes_variable_opaque_array : writes variable_opaque_array three_arrays [x00; x00; x00; x03; x00; x00; x00; x01; x00; x00; x00; x00; x00; x00; x00; x02; x01; x02; x00; x00; x00; x00; x00; x03; x01; x02; x03; x00].
Proof. vm_compute; reflexivity. Qed.
Example to_bytes_custom_enum_struct : writes custom_enum_struct (RSeq [RVariant 0 []]) [x00; x00; x00; x03].
Proof. vm_compute; reflexivity. Qed.

(** ** The derive macros; serde-xdr-test/src/lib.rs.  Every test is run on the
    codec of RustTypes.v and DeModel.v and on the code that the macro expands
    to (DeriveModel.v). *)
Definition type_ := TEnum (map (fun x => (x, VUnit)) ["_Reserved0"; "W"; "_Reserved2"; "X"; "_Reserved4"; "Y"; "_Reserved6"; "Z"]).
Definition the_struct := TStruct [("f0", u8)].
Definition names : list (Z * string) := [(1, "A"); (3, "B"); (5, "C"); (7, "D")].
Definition index : list (string * Z) := [("A", 1); ("B", 3); ("C", 5); ("D", 7)].
Definition indexer := TIndexer [("A", []); ("B", [u8]); ("C", [i32; u32]); ("D", [the_struct])] index names DPanic.
Definition indexer_item := [("A", FUnit); ("B", FUnnamed [u8]); ("C", FUnnamed [i32; u32]); ("D", FUnnamed [the_struct])].
Definition union_of (d : ty) (val : Z -> rval) :=
  TUnion [("A", Some []); ("B", Some [u8]); ("C", Some [TTuple [i32; u32]]); ("D", Some [the_struct])] d
    (map (fun p => (val (fst p), snd p)) names) DPanic.
Definition union_item (d : ty) :=
  [("A", FUnnamed [d]); ("B", FUnnamed [d; u8]); ("C", FUnnamed [d; TTuple [i32; u32]]); ("D", FUnnamed [d; the_struct])].
Definition member (z : Z) : rval := RVariant (Z.to_nat z) [].

Definition both (t : ty) (v : rval) (bs : list byte) : Prop := writes t v bs /\ reads t bs v.
Definition expanded_indexer (i : nat) (fs : list rval) (bs : list byte) : Prop :=
  match xdr_indexer (ItemEnum indexer_item) with
  | Some (sa, da) => (s <- indexer_serialize 5 [] indexer_item sa index i fs;; to_bytes_calls s) = Ok bs /\
      indexer_deserialize 5 [] indexer_item da names DPanic bs = Ok (RVariant i fs, [])
  | None => False
  end.
Definition expanded_union (d : ty) (val : Z -> rval) (i : nat) (fs : list rval) (bs : list byte) : Prop :=
  match xdr_union (ItemEnum (union_item d)) with
  | Some (sa, da, t) => t = d /\ (s <- union_serialize 5 [] (union_item d) sa i fs;; to_bytes_calls s) = Ok bs /\
      union_deserialize 5 [] (union_item d) da t (map (fun p => (val (fst p), snd p)) names) DPanic bs = Ok (RVariant i fs, [])
  | None => False
  end.

Example xdr_indexer_unit_variant : both indexer (RVariant 0 []) [x00; x00; x00; x01] /\ expanded_indexer 0 [] [x00; x00; x00; x01].
Proof. repeat split; vm_compute; reflexivity. Qed.
Example xdr_indexer_newtype_variant : both indexer (RVariant 1 [RInt 11]) [x00; x00; x00; x03; x00; x00; x00; x0b] /\ expanded_indexer 1 [RInt 11] [x00; x00; x00; x03; x00; x00; x00; x0b].
Proof. repeat split; vm_compute; reflexivity. Qed.
Example xdr_indexer_tuple_variant : both indexer (RVariant 2 [RInt (-1); RInt 2]) [x00; x00; x00; x05; xff; xff; xff; xff; x00; x00; x00; x02] /\ expanded_indexer 2 [RInt (-1); RInt 2] [x00; x00; x00; x05; xff; xff; xff; xff; x00; x00; x00; x02].
Proof. repeat split; vm_compute; reflexivity. Qed.
Example xdr_indexer_struct_variant : both indexer (RVariant 3 [RSeq [RInt 1]]) [x00; x00; x00; x07; x00; x00; x00; x01] /\ expanded_indexer 3 [RSeq [RInt 1]] [x00; x00; x00; x07; x00; x00; x00; x01].
Proof. repeat split; vm_compute; reflexivity. Qed.
Example xdr_union_i32_unit_variant : both (union_of i32 RInt) (RVariant 0 [RInt 1]) [x00; x00; x00; x01] /\ expanded_union i32 RInt 0 [RInt 1] [x00; x00; x00; x01].
Proof. repeat split; vm_compute; reflexivity. Qed.
Example xdr_union_i32_newtype_variant : both (union_of i32 RInt) (RVariant 1 [RInt 3; RInt 11]) [x00; x00; x00; x03; x00; x00; x00; x0b] /\ expanded_union i32 RInt 1 [RInt 3; RInt 11] [x00; x00; x00; x03; x00; x00; x00; x0b].
Proof. repeat split; vm_compute; reflexivity. Qed.
Example xdr_union_i32_tuple_variant : both (union_of i32 RInt) (RVariant 2 [RInt 5; ints [-1; 2]]) [x00; x00; x00; x05; xff; xff; xff; xff; x00; x00; x00; x02] /\ expanded_union i32 RInt 2 [RInt 5; ints [-1; 2]] [x00; x00; x00; x05; xff; xff; xff; xff; x00; x00; x00; x02].
Proof. repeat split; vm_compute; reflexivity. Qed.
Example xdr_union_i32_struct_variant : both (union_of i32 RInt) (RVariant 3 [RInt 7; RSeq [RInt 1]]) [x00; x00; x00; x07; x00; x00; x00; x01] /\ expanded_union i32 RInt 3 [RInt 7; RSeq [RInt 1]] [x00; x00; x00; x07; x00; x00; x00; x01].
Proof. repeat split; vm_compute; reflexivity. Qed.
Example xdr_union_u32_unit_variant : both (union_of u32 RInt) (RVariant 0 [RInt 1]) [x00; x00; x00; x01] /\ expanded_union u32 RInt 0 [RInt 1] [x00; x00; x00; x01].
Proof. repeat split; vm_compute; reflexivity. Qed.
Example xdr_union_u32_newtype_variant : both (union_of u32 RInt) (RVariant 1 [RInt 3; RInt 11]) [x00; x00; x00; x03; x00; x00; x00; x0b] /\ expanded_union u32 RInt 1 [RInt 3; RInt 11] [x00; x00; x00; x03; x00; x00; x00; x0b].
Proof. repeat split; vm_compute; reflexivity. Qed.
Example xdr_union_u32_tuple_variant : both (union_of u32 RInt) (RVariant 2 [RInt 5; ints [-1; 2]]) [x00; x00; x00; x05; xff; xff; xff; xff; x00; x00; x00; x02] /\ expanded_union u32 RInt 2 [RInt 5; ints [-1; 2]] [x00; x00; x00; x05; xff; xff; xff; xff; x00; x00; x00; x02].
Proof. repeat split; vm_compute; reflexivity. Qed.
Example xdr_union_u32_struct_variant : both (union_of u32 RInt) (RVariant 3 [RInt 7; RSeq [RInt 1]]) [x00; x00; x00; x07; x00; x00; x00; x01] /\ expanded_union u32 RInt 3 [RInt 7; RSeq [RInt 1]] [x00; x00; x00; x07; x00; x00; x00; x01].
Proof. repeat split; vm_compute; reflexivity. Qed.
Example xdr_union_enum_unit_variant : both (union_of type_ member) (RVariant 0 [member 1]) [x00; x00; x00; x01] /\ expanded_union type_ member 0 [member 1] [x00; x00; x00; x01].
Proof. repeat split; vm_compute; reflexivity. Qed.
Example xdr_union_enum_newtype_variant : both (union_of type_ member) (RVariant 1 [member 3; RInt 11]) [x00; x00; x00; x03; x00; x00; x00; x0b] /\ expanded_union type_ member 1 [member 3; RInt 11] [x00; x00; x00; x03; x00; x00; x00; x0b].
Proof. repeat split; vm_compute; reflexivity. Qed.
Example xdr_union_enum_tuple_variant : both (union_of type_ member) (RVariant 2 [member 5; ints [-1; 2]]) [x00; x00; x00; x05; xff; xff; xff; xff; x00; x00; x00; x02] /\ expanded_union type_ member 2 [member 5; ints [-1; 2]] [x00; x00; x00; x05; xff; xff; xff; xff; x00; x00; x00; x02].
Proof. repeat split; vm_compute; reflexivity. Qed.
Example xdr_union_enum_struct_variant : both (union_of type_ member) (RVariant 3 [member 7; RSeq [RInt 1]]) [x00; x00; x00; x07; x00; x00; x00; x01] /\ expanded_union type_ member 3 [member 7; RSeq [RInt 1]] [x00; x00; x00; x07; x00; x00; x00; x01].
Proof. repeat split; vm_compute; reflexivity. Qed.
