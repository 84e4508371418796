(** Property theorems of serde-xdr and serde-xdr-derive (C01-C30). *)
From Verif Require Import Base SpecUtf8 SerModel RustTypes DeModel SpecXdr SpecTypes
  SpecDecode SpecMisc ExamplesCodec CodecLemmas NormProofs.

(** ** C01 encode/decode round trip *)
Theorem C01_round_trip : forall E t v, supported E t v ->
  exists bs, returns (fun n => to_bytes n E t v) (Ok bs) /\
             returns (fun n => from_bytes n E t bs) (Ok v).
Proof. exact c01. Qed.
Print Assumptions C01_round_trip.
Example C01_case : supported list_env (TRef "node") list_value.
Proof. exact list_supported. Qed.

(** ** C02 RFC 4506 conformance of the encoder *)
Theorem C02_rfc_conformance : forall E t v x, denotes false E t v x ->
  exists bs, returns (fun n => to_bytes n E t v) (Ok bs) /\ rfc x bs /\
             (forall bs', rfc x bs' -> bs' = bs).
Proof. exact c02. Qed.
Print Assumptions C02_rfc_conformance.
Example C02_case : denotes false [] record_ty record_value record_xdr.
Proof. exact (record_denotes false). Qed.

(** ** C03 output is a whole number of XDR units *)
Theorem C03_whole_units : forall s bs, to_bytes_calls s = Ok bs -> zlen bs mod 4 = 0.
Proof. exact c03. Qed.
Print Assumptions C03_whole_units.
Example C03_case : to_bytes_calls (SSeq (Some 7) [SStr [x61]; SBool true]) =
  Ok [x00; x00; x00; x07; x00; x00; x00; x01; x61; x00; x00; x00; x00; x00; x00; x01].
Proof. reflexivity. Qed.

(** ** C04 encoding is injective *)
Theorem C04_injective : forall E t v1 v2 bs, supported E t v1 -> supported E t v2 ->
  returns (fun n => to_bytes n E t v1) (Ok bs) ->
  returns (fun n => to_bytes n E t v2) (Ok bs) -> v1 = v2.
Proof. exact c04. Qed.
Print Assumptions C04_injective.
Example C04_case : supported [] record_ty record_value /\
  returns (fun n => to_bytes n [] record_ty record_value) (Ok record_bytes).
Proof. exact record_encodes. Qed.

(** ** C05 self-delimiting encodings *)
Theorem C05_prefix_free : forall E t v1 v2 b1 b2 r, supported E t v1 -> supported E t v2 ->
  returns (fun n => to_bytes n E t v1) (Ok b1) ->
  returns (fun n => to_bytes n E t v2) (Ok b2) -> b2 = b1 ++ r -> v1 = v2 /\ r = [].
Proof. exact c05_prefix. Qed.
Print Assumptions C05_prefix_free.
Theorem C05_consumes_its_encoding : forall E t v bs r, supported E t v ->
  returns (fun n => to_bytes n E t v) (Ok bs) ->
  returns (fun n => deser n E t (bs ++ r)) (Ok (v, r)).
Proof. exact c05_concat. Qed.
Print Assumptions C05_consumes_its_encoding.
Theorem C05_concatenation : forall E ts vs bs,
  Forall2 (supported E) ts vs -> encodes_all E ts vs bs ->
  returns (fun n => from_bytes n E (TTuple ts) bs) (Ok (RSeq vs)).
Proof. exact c05_tuple. Qed.
Print Assumptions C05_concatenation.
Example C05_case : Forall2 (supported []) [record_ty; record_ty] [record_value; record_value] /\
  encodes_all [] [record_ty; record_ty] [record_value; record_value]
    (record_bytes ++ record_bytes ++ []).
Proof. exact record_twice. Qed.

(** ** C06 trailing data is rejected *)
Theorem C06_trailing_data : forall E t v bs r, supported E t v ->
  returns (fun n => to_bytes n E t v) (Ok bs) -> r <> [] ->
  returns (fun n => from_bytes n E t (bs ++ r)) (Err (ETrailingData (zlen r))).
Proof. exact c06. Qed.
Print Assumptions C06_trailing_data.
Example C06_case : supported [] record_ty record_value /\
  returns (fun n => to_bytes n [] record_ty record_value) (Ok record_bytes) /\ [x00] <> [].
Proof. exact (conj (proj1 record_encodes) (conj (proj2 record_encodes) (fun H => nil_cons (eq_sym H)))). Qed.

(** ** C07 truncated encodings are never accepted *)
Theorem C07_truncated : forall E t v p q n v', supported E t v ->
  returns (fun n => to_bytes n E t v) (Ok (p ++ q)) -> q <> [] ->
  from_bytes n E t p <> Ok v'.
Proof. exact c07. Qed.
Print Assumptions C07_truncated.
Example C07_case : exists p q, supported [] record_ty record_value /\
  returns (fun n => to_bytes n [] record_ty record_value) (Ok (p ++ q)) /\ q <> [] /\ zlen p = 12.
Proof. exact record_cut. Qed.

(** ** C08 only whole XDR units are accepted *)
Theorem C08_accepts_whole_units : forall E t i v n, from_bytes n E t i = Ok v -> zlen i mod 4 = 0.
Proof. exact c08. Qed.
Print Assumptions C08_accepts_whole_units.
Example C08_case : from_bytes 3 [] (TSeq TBool) [x00; x00; x00; x01; x00; x00; x09; x00] =
  Ok (RSeq [RBool true]).
Proof. reflexivity. Qed.

(** ** C09 decoder never panics: false, a string without its padding panics *)
Theorem C09_panic_refuted : exists t i, returns (fun n => from_bytes n [] t i) Panic.
Proof. exact c09_refuted. Qed.
Print Assumptions C09_panic_refuted.
(** Missing: inputs whose length is not a multiple of 4 (refuted above) and
    types with panicking lookup functions or with more than 9 fields in a
    derived variant. *)
Theorem C09_no_panic_partial : forall E t i n, env_all tables_total E -> tables_total t ->
  zlen i mod 4 = 0 -> from_bytes n E t i <> Panic.
Proof. exact c09. Qed.
Print Assumptions C09_no_panic_partial.
Example C09_case : env_all tables_total list_env /\ tables_total (TRef "node") /\
  tables_total record_ty /\ tables_total sample_indexer /\ tables_total sample_union.
Proof. exact totals. Qed.

(** ** C10 decoding is local *)
Theorem C10_local : forall E t b v r n, deser n E t b = Ok (v, r) ->
  exists c, b = c ++ r /\ forall r', returns (fun n => deser n E t (c ++ r')) (Ok (v, r')).
Proof. exact c10. Qed.
Print Assumptions C10_local.
Example C10_case : deser 3 [] (TOption TChar) [x00; x00; x00; x01; x00; x01; xf6; x00; xff] =
  Ok (RSome (RChar 128512), [xff]).
Proof. reflexivity. Qed.

(** ** C11 narrow integers keep the low-order bits *)
Theorem C11_narrow_integers : forall E s w word z r, w = W8 \/ w = W16 -> unsigned 4 z word ->
  exists z', int_range s w z' /\ (z' - z) mod 2 ^ bits w = 0 /\
    returns (fun n => deser n E (TInt s w) (word ++ r)) (Ok (RInt z', r)) /\
    (forall y, (if s then signed 4 y word else unsigned 4 y word) -> int_range s w y -> z' = y).
Proof. exact c11. Qed.
Print Assumptions C11_narrow_integers.
Example C11_case : unsigned 4 511 [x00; x00; x01; xff] /\
  from_bytes 1 [] (TInt true W8) [x00; x00; x01; xff] = Ok (RInt (-1)).
Proof. split; [split|]; reflexivity. Qed.

(** ** C12 booleans and optional data *)
Theorem C12_bool : forall E word z r, unsigned 4 z word ->
  returns (fun n => deser n E TBool (word ++ r)) (Ok (RBool (negb (z =? 0)), r)).
Proof. exact c12_bool. Qed.
Print Assumptions C12_bool.
Theorem C12_none : forall E t word r, unsigned 4 0 word ->
  returns (fun n => deser n E (TOption t) (word ++ r)) (Ok (RNone, r)).
Proof. exact c12_none. Qed.
Print Assumptions C12_none.
Theorem C12_some : forall E t word z r v r', unsigned 4 z word -> z <> 0 ->
  returns (fun n => deser n E (TOption t) (word ++ r)) (Ok (v, r')) <->
  exists w, v = RSome w /\ returns (fun n => deser n E t r) (Ok (w, r')).
Proof. exact c12_some. Qed.
Print Assumptions C12_some.
Theorem C12_written : forall E t v b, encodes E t v b ->
  match t with TBool | TOption _ => True | _ => False end ->
  exists w r, b = w ++ r /\ (unsigned 4 0 w \/ unsigned 4 1 w).
Proof. exact c12_written. Qed.
Print Assumptions C12_written.
Example C12_case : unsigned 4 2 [x00; x00; x00; x02] /\
  from_bytes 2 [] (TOption TBool) [x00; x00; x00; x02; x80; x00; x00; x00] = Ok (RSome (RBool true)).
Proof. split; [split|]; reflexivity. Qed.

(** ** C13 accepted input is normalised by re-encoding *)
Theorem C13_normalise : forall E t b v n, env_all reversible E -> reversible t ->
  from_bytes n E t b = Ok v ->
  exists b', returns (fun n => to_bytes n E t v) (Ok b') /\ zlen b' = zlen b /\
             returns (fun n => from_bytes n E t b') (Ok v).
Proof. exact normalise. Qed.
Print Assumptions C13_normalise.
Example C13_case : env_all reversible list_env /\ reversible (TRef "node") /\
  reversible sample_indexer /\ reversible sample_union /\
  from_bytes 12 list_env (TRef "node")
    [x00; x00; x00; x01; x61; xff; xff; xff; x00; x00; x00; x07;
     x00; x00; x00; x00; x00; x00; x00; x00]
  = Ok (RSeq [RStr [x61]; RSome (RSeq [RStr []; RNone])]).
Proof. exact junk_decodes. Qed.

(** ** C14 strings are exactly the valid UTF-8 byte strings *)
Theorem C14_utf8 : forall E i s, returns (fun n => from_bytes n E TStr i) (Ok (RStr s)) <->
  exists n p, i = n ++ s ++ p /\ unsigned 4 (zlen s) n /\ any_pad (zlen s) p /\ valid_utf8 s.
Proof. exact c14. Qed.
Print Assumptions C14_utf8.
Theorem C14_invalid : forall E n s r, unsigned 4 (zlen s) n -> ~ valid_utf8 s ->
  returns (fun k => from_bytes k E TStr (n ++ s ++ r)) (Err EEncoding).
Proof. exact c14_invalid. Qed.
Print Assumptions C14_invalid.
Example C14_case : valid_utf8 [xf0; x9f; x98; x80] /\ ~ valid_utf8 [xed; xa0; x80].
Proof. exact utf8_cases. Qed.

(** ** C15 chars are exactly the Unicode scalar values *)
Theorem C15_char : forall E w z r, unsigned 4 z w ->
  (is_scalar z -> returns (fun n => deser n E TChar (w ++ r)) (Ok (RChar z, r))) /\
  (~ is_scalar z -> returns (fun n => deser n E TChar (w ++ r)) (Err EConvert)).
Proof. exact c15. Qed.
Print Assumptions C15_char.
Example C15_case : unsigned 4 0xD800 [x00; x00; xd8; x00] /\ ~ is_scalar 0xD800 /\ is_scalar 0x1F600.
Proof. exact char_cases. Qed.

(** ** C16 unknown enum discriminants are rejected *)
Theorem C16_negative : forall E vss w z r, signed 4 z w -> z < 0 ->
  returns (fun n => deser n E (TEnum vss) (w ++ r)) (Err EConvert).
Proof. exact c16_negative. Qed.
Print Assumptions C16_negative.
Theorem C16_unknown : forall E vss w z r, signed 4 z w -> Z.of_nat (length vss) <= z ->
  returns (fun n => deser n E (TEnum vss) (w ++ r)) (Err (ECustom (MInvalidVariant z))).
Proof. exact c16_unknown. Qed.
Print Assumptions C16_unknown.
Theorem C16_selected : forall E vss w z r n v r', signed 4 z w ->
  deser n E (TEnum vss) (w ++ r) = Ok (v, r') ->
  0 <= z < Z.of_nat (length vss) /\ exists vs, v = RVariant (Z.to_nat z) vs.
Proof. exact c16_selected. Qed.
Print Assumptions C16_selected.
Theorem C16_unit : forall E vss w i name r, Z.of_nat i < 2 ^ 31 -> signed 4 (Z.of_nat i) w ->
  nth_error vss i = Some (name, VUnit) ->
  returns (fun n => deser n E (TEnum vss) (w ++ r)) (Ok (RVariant i [], r)).
Proof. exact c16_unit. Qed.
Print Assumptions C16_unit.
Example C16_case : signed 4 (-1) [xff; xff; xff; xff] /\
  deser 3 [] (TEnum [("A", VUnit); ("B", VNewtype TBool)]%string)
    [x00; x00; x00; x01; x00; x00; x00; x01] = Ok (RVariant 1 [RBool true], []).
Proof. exact enum_case. Qed.

(** ** C17 exact failure conditions of the encoder *)
Theorem C17_faults : forall s,
  match faults s with
  | [] => exists bs, to_bytes_calls s = Ok bs
  | f :: _ => to_bytes_calls s = fault_result f
  end.
Proof. exact c17. Qed.
Print Assumptions C17_faults.
Example C17_case : faults (STuple [SBool true; SUnitVariant (2 ^ 31); SSeq None []; SI128 3]) =
  [BigVariant; UnknownLength; Int128].
Proof. reflexivity. Qed.

(** ** C18 length prefixes are never silently truncated: false *)
Theorem C18_bytes_refuted : exists bs out,
  returns (fun n => to_bytes n [] TByteBuf (RBytes bs)) (Ok out) /\
  nval (firstn 4 out) <> zlen bs.
Proof. exact c18_bytes. Qed.
Print Assumptions C18_bytes_refuted.
Theorem C18_seq_refuted : exists v1 v2 out, v1 <> v2 /\
  returns (fun n => to_bytes n [] (TSeq TUnit) v1) (Ok out) /\
  returns (fun n => to_bytes n [] (TSeq TUnit) v2) (Ok out).
Proof. exact c18_seq. Qed.
Print Assumptions C18_seq_refuted.
(** Missing: lengths of 2^32 or more (refuted above). *)
Theorem C18_prefix_partial : forall E t v b k, encodes E t v b -> wire_len t v = Some k -> k < 2 ^ 32 ->
  exists w r, b = w ++ r /\ unsigned 4 k w.
Proof. exact c18_fits. Qed.
Print Assumptions C18_prefix_partial.
Example C18_case : encodes [] TStr (RStr [x61]) [x00; x00; x00; x01; x61; x00; x00; x00] /\
  wire_len TStr (RStr [x61]) = Some 1.
Proof. exact str_case. Qed.

(** ** C19 opaque helpers produce XDR opaque data *)
Theorem C19_variable : forall bs o,
  serialize (calls_opaque_variable bs) o = serialize_bytes bs o.
Proof. exact c19_variable. Qed.
Print Assumptions C19_variable.
Theorem C19_fixed : forall bs, exists p, zero_pad (zlen bs) p /\
  forall o, serialize (calls_opaque_fixed bs) o = Ok (o ++ bs ++ p).
Proof. exact c19_fixed. Qed.
Print Assumptions C19_fixed.
Theorem C19_read_variable : forall E n bs p r, unsigned 4 (zlen bs) n -> any_pad (zlen bs) p ->
  returns (fun k => deser k E TOpaqueVar (n ++ bs ++ p ++ r)) (Ok (RBytes bs, r)).
Proof. exact c19_read_variable. Qed.
Print Assumptions C19_read_variable.
Theorem C19_read_fixed : forall E bs p r, any_pad (zlen bs) p ->
  returns (fun k => deser k E (TOpaqueFixed (length bs)) (bs ++ p ++ r)) (Ok (RBytes bs, r)) /\
  zlen (bs ++ p) = 4 * ((zlen bs + 3) / 4).
Proof. exact c19_read_fixed. Qed.
Print Assumptions C19_read_fixed.
Example C19_case : unsigned 4 (zlen [x01; x02; x03; x04; x05]) [x00; x00; x00; x05] /\
  any_pad (zlen [x01; x02; x03; x04; x05]) [x00; x11; x22].
Proof. exact opaque_case. Qed.

(** ** C20 decoder memory is bounded by the input: false for opaque::variable,
    4 bytes of input make it allocate 2^32 - 1 bytes *)
Theorem C20_memory_refuted : exists i, zlen i = 4 /\ alloc_opaque_variable i = 2 ^ 32 - 1.
Proof. exact c20_refuted. Qed.
Print Assumptions C20_memory_refuted.
(** Missing: opaque::variable (refuted above); containers of other elements. *)
Theorem C20_text_and_bytes_partial : forall i, alloc_read_bytes i <= zlen i.
Proof. exact c20_bytes. Qed.
Print Assumptions C20_text_and_bytes_partial.

(** ** C21 element counts are bounded by the input *)
Theorem C21_seq : forall E t i n vs, occupies E t ->
  from_bytes n E (TSeq t) i = Ok (RSeq vs) -> 4 * (1 + zlen vs) <= zlen i.
Proof. exact c21_seq. Qed.
Print Assumptions C21_seq.
Theorem C21_promise : forall E t w k r n v, occupies E t -> unsigned 4 k w -> zlen r < 4 * k ->
  from_bytes n E (TSeq t) (w ++ r) <> Ok v.
Proof. exact c21_promise. Qed.
Print Assumptions C21_promise.
Theorem C21_map : forall E tk tv i n m, occupies E tk \/ occupies E tv ->
  from_bytes n E (TMap tk tv) i = Ok (RMap m) -> 4 * (1 + zlen m) <= zlen i.
Proof. exact c21_map. Qed.
Print Assumptions C21_map.
Example C21_case : occupies list_env (TRef "node") /\
  from_bytes 4 [] (TMap TBool (TInt true W8))
    [x00; x00; x00; x02; x00; x00; x00; x01; x00; x00; x00; x05;
     x00; x00; x00; x00; x00; x00; x00; x06]
  = Ok (RMap [(RBool true, RInt 5); (RBool false, RInt 6)]).
Proof. exact occupies_case. Qed.

(** ** C22 maps: last duplicate wins (round trips with distinct keys are part of C01) *)
Theorem C22_last_wins : forall E tk tv i n m, from_bytes n E (TMap tk tv) i = Ok (RMap m) ->
  exists w kvs bs, i = w ++ bs /\ unsigned 4 (zlen kvs) w /\
    accepts_all E (flat_map (fun _ => [tk; tv]) kvs)
                  (flat_map (fun '(k, v) => [k; v]) kvs) bs /\
    NoDup (map fst m) /\
    forall k, assoc rval_eqb k m = assoc rval_eqb k (rev kvs).
Proof. exact c22. Qed.
Print Assumptions C22_last_wins.
Example C22_case :
  from_bytes 4 [] (TMap TBool (TInt true W8))
    [x00; x00; x00; x02; x00; x00; x00; x01; x00; x00; x00; x05;
     x00; x00; x00; x01; x00; x00; x00; x06]
  = Ok (RMap [(RBool true, RInt 6)]).
Proof. reflexivity. Qed.

(** ** C23 signed32 helper *)
Theorem C23_write : forall E asr tf d i z, nth_error asr i = Some z -> i32_range z ->
  exists w, signed 4 z w /\ encodes E (TSigned32 asr tf d) (RVariant i []) w.
Proof. exact c23_write. Qed.
Print Assumptions C23_write.
Theorem C23_read : forall E asr tf d w z r, signed 4 z w ->
  returns (fun n => deser n E (TSigned32 asr tf d) (w ++ r))
    match with_dflt (assoc Z.eqb z tf) d with
    | DVal k => Ok (RVariant k [], r)
    | DErr => Err (ECustom (MCannotConvert z))
    | DPanic => Panic
    end.
Proof. exact c23_read. Qed.
Print Assumptions C23_read.
Theorem C23_inverse : forall E asr tf d i, signed32_inverse asr tf d -> (i < length asr)%nat ->
  exists bs, returns (fun n => to_bytes n E (TSigned32 asr tf d) (RVariant i [])) (Ok bs) /\
             returns (fun n => from_bytes n E (TSigned32 asr tf d) bs) (Ok (RVariant i [])).
Proof. exact c23_inverse. Qed.
Print Assumptions C23_inverse.
Example C23_case : signed32_inverse [-5; 7] [(-5, 0%nat); (7, 1%nat)] DErr.
Proof. exact signed32_case. Qed.

(** ** C24 derive(XdrIndexer) round trips: false for ten fields or more *)
Theorem C24_many_fields_refuted : exists vss index names d i name z ts vs bs,
  indexer_inverse vss index names d /\
  nth_error vss i = Some (name, ts) /\ assoc String.eqb name index = Some z /\
  Forall2 (supported []) ts vs /\
  encodes [] (TIndexer vss index names d) (RVariant i vs) bs /\
  returns (fun n => from_bytes n [] (TIndexer vss index names d) bs) Panic.
Proof. exact c24_refuted. Qed.
Print Assumptions C24_many_fields_refuted.
(** Missing: variants with ten or more fields (refuted above). *)
Theorem C24_indexer_partial : forall E vss index names d i name ts vs z,
  NoDup (map fst vss) -> nth_error vss i = Some (name, ts) ->
  assoc String.eqb name index = Some z -> i32_range z ->
  with_dflt (assoc Z.eqb z names) d = DVal name -> (length ts <= 9)%nat ->
  Forall2 (supported E) ts vs ->
  exists w bs, signed 4 z w /\ encodes_all E ts vs bs /\
    encodes E (TIndexer vss index names d) (RVariant i vs) (w ++ bs) /\
    returns (fun n => from_bytes n E (TIndexer vss index names d) (w ++ bs)) (Ok (RVariant i vs)).
Proof. exact c24. Qed.
Print Assumptions C24_indexer_partial.
Example C24_case : supported [] sample_indexer (RVariant 1 [RBool true; RStr [x61]]).
Proof. exact indexer_case. Qed.

(** ** C25 derive(XdrUnion) round trips: false for ten fields or more *)
Theorem C25_many_fields_refuted : exists vss disc names d i name ts v vs bs,
  NoDup (map fst vss) /\ nth_error vss i = Some (name, Some ts) /\
  with_dflt (assoc rval_eqb v names) d = DVal name /\
  supported [] disc v /\ Forall2 (supported []) ts vs /\
  encodes [] (TUnion vss disc names d) (RVariant i (v :: vs)) bs /\
  returns (fun n => from_bytes n [] (TUnion vss disc names d) bs) Panic.
Proof. exact c25_refuted. Qed.
Print Assumptions C25_many_fields_refuted.
(** Missing: variants with ten or more fields after the discriminant (refuted above). *)
Theorem C25_union_partial : forall E vss disc names d i name ts v vs,
  NoDup (map fst vss) -> nth_error vss i = Some (name, Some ts) ->
  with_dflt (assoc rval_eqb v names) d = DVal name -> (length ts <= 9)%nat ->
  supported E disc v -> Forall2 (supported E) ts vs ->
  exists w bs, encodes E disc v w /\ encodes_all E ts vs bs /\
    encodes E (TUnion vss disc names d) (RVariant i (v :: vs)) (w ++ bs) /\
    returns (fun n => from_bytes n E (TUnion vss disc names d) (w ++ bs)) (Ok (RVariant i (v :: vs))).
Proof. exact c25. Qed.
Print Assumptions C25_union_partial.
Example C25_case : supported [] sample_union (RVariant 1 [RInt 9; RStr [x61]]).
Proof. exact union_case. Qed.

(** ** C26 structure is transparent *)
Theorem C26_newtype : forall E t v b, encodes E t v b -> encodes E (TNewtype t) v b.
Proof. exact c26_newtype. Qed.
Print Assumptions C26_newtype.
Theorem C26_box : forall E t v b, encodes E t v b -> encodes E (TBox t) v b.
Proof. exact c26_box. Qed.
Print Assumptions C26_box.
Theorem C26_unit : forall E, encodes E TUnit RUnit [] /\ encodes E TUnitStruct RUnit [].
Proof. exact c26_unit. Qed.
Print Assumptions C26_unit.
Theorem C26_tuple : forall E ts vs b, encodes_all E ts vs b -> encodes E (TTuple ts) (RSeq vs) b.
Proof. exact c26_tuple. Qed.
Print Assumptions C26_tuple.
Theorem C26_tuple_struct : forall E ts vs b,
  encodes_all E ts vs b -> encodes E (TTupleStruct ts) (RSeq vs) b.
Proof. exact c26_tuple_struct. Qed.
Print Assumptions C26_tuple_struct.
Theorem C26_struct : forall E ts vs b,
  encodes_all E (map snd ts) vs b -> encodes E (TStruct ts) (RSeq vs) b.
Proof. exact c26_struct. Qed.
Print Assumptions C26_struct.
Theorem C26_array : forall E k t vs b,
  encodes_all E (repeat t k) vs b -> encodes E (TArray k t) (RSeq vs) b.
Proof. exact c26_array. Qed.
Print Assumptions C26_array.
Theorem C26_variant : forall E vss i name sh ts vs b,
  nth_error vss i = Some (name, sh) -> Z.of_nat i < 2 ^ 31 ->
  ts = match sh with VUnit => [] | VNewtype t => [t] | VTuple ts => ts | VStruct ts => map snd ts end ->
  encodes_all E ts vs b ->
  exists w, unsigned 4 (Z.of_nat i) w /\ encodes E (TEnum vss) (RVariant i vs) (w ++ b).
Proof. exact c26_variant. Qed.
Print Assumptions C26_variant.
Example C26_case : encodes_all [] [record_ty; record_ty] [record_value; record_value]
    (record_bytes ++ record_bytes ++ []).
Proof. exact (proj2 record_twice). Qed.

(** ** C27 floats are bit exact *)
Theorem C27_f32 : forall E z r, 0 <= z < 2 ^ 32 -> exists w, unsigned 4 z w /\
  encodes E TF32 (RFloat z) w /\ returns (fun n => deser n E TF32 (w ++ r)) (Ok (RFloat z, r)).
Proof. exact c27_f32. Qed.
Print Assumptions C27_f32.
Theorem C27_f64 : forall E z r, 0 <= z < 2 ^ 64 -> exists w, unsigned 8 z w /\
  encodes E TF64 (RFloat z) w /\ returns (fun n => deser n E TF64 (w ++ r)) (Ok (RFloat z, r)).
Proof. exact c27_f64. Qed.
Print Assumptions C27_f64.
Example C27_case : 0 <= 0x7FC00001 < 2 ^ 32.   (* a NaN with payload *)
Proof. exact nan_case. Qed.

(** ** C28 decoding terminates, with recursion depth linear in the input *)
Theorem C28_terminates : forall d E t, env_guarded d E -> guarded d E true t = true -> forall i,
  exists r, r <> Fuel /\
    forall n, (d + Z.to_nat (zlen i / 4) * S d <= n)%nat -> from_bytes n E t i = r.
Proof. exact c28. Qed.
Print Assumptions C28_terminates.
Example C28_case : env_guarded 5 list_env /\ guarded 5 list_env true (TRef "node") = true.
Proof. exact guarded_case. Qed.
(** the hypothesis is needed: an unguarded recursive type never returns *)
Example C28_unguarded : forall i,
  diverges (fun n => from_bytes n [("loop"%string, TBox (TRef "loop"))] (TRef "loop") i).
Proof. exact unguarded_case. Qed.

(** ** C29 serialization only appends *)
Theorem C29_appends : forall s o,
  serialize s o = match to_bytes_calls s with Ok b => Ok (o ++ b) | r => r end.
Proof. exact c29. Qed.
Print Assumptions C29_appends.

(** ** C30 padding content is ignored *)
Theorem C30_padding : forall E n t w bs p q r,
  t = TStr \/ t = TByteBuf \/ t = TOpaqueVar ->
  unsigned 4 (zlen bs) w -> any_pad (zlen bs) p -> any_pad (zlen bs) q ->
  deser n E t (w ++ bs ++ p ++ r) = deser n E t (w ++ bs ++ q ++ r).
Proof. exact c30. Qed.
Print Assumptions C30_padding.
Theorem C30_padding_fixed : forall E n bs p q r, any_pad (zlen bs) p -> any_pad (zlen bs) q ->
  deser n E (TOpaqueFixed (length bs)) (bs ++ p ++ r) =
  deser n E (TOpaqueFixed (length bs)) (bs ++ q ++ r).
Proof. exact c30_fixed. Qed.
Print Assumptions C30_padding_fixed.
Example C30_case : any_pad (zlen [x61]) [x00; x00; x00] /\ any_pad (zlen [x61]) [x01; xff; x61].
Proof. exact pad_case. Qed.

(** ** C59 decoding whole XDR units never panics *)
Theorem C59_no_panic_on_units : forall E t i n, env_all tables_total E -> tables_total t ->
  zlen i mod 4 = 0 -> from_bytes n E t i <> Panic.
Proof. exact c09. Qed.
Print Assumptions C59_no_panic_on_units.
Example C59_case : env_all tables_total list_env /\ tables_total (TRef "node") /\
  tables_total record_ty /\ tables_total sample_indexer /\ tables_total sample_union.
Proof. exact totals. Qed.
