(** Concrete types and values showing that the hypotheses of PropsCodec.v can
    be met. *)
From Verif Require Import Base SpecUtf8 Utf8 Utf8Proofs SerModel RustTypes DeModel SpecXdr SpecTypes
  SpecDecode SpecMisc CodecLemmas NormProofs.

(** a linked list: struct node { name: String, next: Option<Box<node>> } *)
Definition list_env : env :=
  [("node"%string, TStruct [("name", TStr); ("next", TOption (TBox (TRef "node")))]%string)].
Definition list_value : rval :=
  RSeq [RStr [x61]; RSome (RSeq [RStr [x62; x63]; RNone])].

Lemma ascii_valid b : Zb b < 128 -> valid_utf8 [b].
Proof.
  intros H. pose proof (Zb_range b). change [b] with ([b] ++ []). apply valid_app with (Zb b).
  - left. lia.
  - apply utf8_1; [lia|reflexivity].
  - constructor.
Qed.

Lemma valid_ab : valid_utf8 [x62; x63].
Proof.
  change [x62; x63] with ([x62] ++ [x63]). apply valid_app with 98.
  - left. lia.
  - apply utf8_1; [lia|reflexivity].
  - apply ascii_valid. reflexivity.
Qed.

Lemma list_supported : supported list_env (TRef "node") list_value.
Proof.
  eexists. eapply dn_ref; [reflexivity|]. apply dn_struct. cbn [map snd].
  apply dn_cons; [apply dn_str; [apply ascii_valid|]; reflexivity|].
  apply dn_cons; [|apply dn_nil]. apply dn_some, dn_box.
  eapply dn_ref; [reflexivity|]. apply dn_struct. cbn [map snd].
  apply dn_cons; [apply dn_str; [apply valid_ab|reflexivity]|].
  apply dn_cons; [apply dn_none|apply dn_nil].
Qed.

Definition record_ty : ty :=
  TStruct [("a", TInt true W16); ("b", TSeq TChar); ("c", TOpaqueVar);
           ("d", TEnum [("X", VUnit); ("Y", VTuple [TF64; TBool])])]%string.
Definition record_value : rval :=
  RSeq [RInt (-2); RSeq [RChar 65]; RBytes [x01; x02; x03; x04; x05];
        RVariant 1 [RFloat (2 ^ 63); RBool false]].
Definition record_xdr : xv :=
  XStruct [XInt (-2); XArray [XUInt 65]; XOpaque [x01; x02; x03; x04; x05];
           XUnion (XEnum 1) (XStruct [XDouble (2 ^ 63); XUInt 0])].
Definition record_bytes : list byte :=
  [xff; xff; xff; xfe; x00; x00; x00; x01; x00; x00; x00; x41; x00; x00; x00; x05;
   x01; x02; x03; x04; x05; x00; x00; x00; x00; x00; x00; x01;
   x80; x00; x00; x00; x00; x00; x00; x00; x00; x00; x00; x00].

Lemma record_denotes R : denotes R [] record_ty record_value record_xdr.
Proof.
  apply dn_struct. cbn [map snd].
  apply dn_cons; [apply dn_int; [cbn; lia|reflexivity]|].
  apply dn_cons.
  { apply dn_seq; [reflexivity|]. apply dn_cons; [apply dn_char; left; lia|apply dn_nil]. }
  apply dn_cons; [apply dn_opaque; reflexivity|].
  apply dn_cons; [|apply dn_nil].
  apply (dn_tuple_variant R [] [("X", VUnit); ("Y", VTuple [TF64; TBool])]%string 1 "Y"%string [TF64; TBool]);
    [reflexivity|reflexivity|].
  apply dn_cons; [apply dn_f64; lia|]. apply dn_cons; [apply (dn_bool R [] false)|apply dn_nil].
Qed.

Lemma record_encodes : supported [] record_ty record_value /\
  returns (fun n => to_bytes n [] record_ty record_value) (Ok record_bytes).
Proof.
  split; [exists record_xdr; apply record_denotes|].
  apply returns_to_bytes with 5%nat; [vm_compute; reflexivity|discriminate].
Qed.

Lemma record_twice : Forall2 (supported []) [record_ty; record_ty] [record_value; record_value] /\
  encodes_all [] [record_ty; record_ty] [record_value; record_value]
    (record_bytes ++ record_bytes ++ []).
Proof.
  destruct record_encodes as [S1 R1]. split; [repeat (constructor; [assumption|]); constructor|].
  repeat (constructor; [assumption|]); constructor.
Qed.

Lemma record_cut : exists p q, supported [] record_ty record_value /\
  returns (fun n => to_bytes n [] record_ty record_value) (Ok (p ++ q)) /\ q <> [] /\ zlen p = 12.
Proof.
  exists (firstn 12 record_bytes), (skipn 12 record_bytes).
  split; [apply record_encodes|]. split; [apply record_encodes|]. split; [discriminate|reflexivity].
Qed.

(** an XdrIndexer enum and an XdrUnion enum *)
Definition sample_indexer : ty :=
  TIndexer [("A", []); ("B", [TBool; TStr])]%string [("A", 3); ("B", -1)]%string
    [(3, "A"); (-1, "B")]%string DErr.
Definition sample_union : ty :=
  TUnion [("A", Some []); ("Default", Some [TStr])]%string (TInt true W32)
    [(RInt 1, "A")]%string (DVal "Default"%string).

Lemma env_all_list (P : ty -> Prop) E : Forall (fun '(_, t) => P t) E -> env_all P E.
Proof.
  intros H x t L. unfold lookup in L. induction H as [|[y s] E Hs _ IH]; [discriminate|].
  cbn in L. destruct (String.eqb x y); [congruence|auto].
Qed.

Lemma totals : env_all tables_total list_env /\ tables_total (TRef "node") /\
  tables_total record_ty /\ tables_total sample_indexer /\ tables_total sample_union.
Proof.
  split; [apply env_all_list; repeat constructor|].
  split; [exact I|]. split; [cbn; tauto|]. split.
  - split; [split; [discriminate|]|cbn; repeat split; lia].
    intros k name. cbn. destruct (k =? 3); [|destruct (k =? -1)]; intros H; try discriminate;
      injection H as <-; eexists; [left|right; left]; reflexivity.
  - split; [split; [discriminate|]|cbn; repeat split; lia].
    intros k name. cbn. destruct k; cbn; try destruct (z =? 1); intros H; injection H as <-; eexists;
      try (now left); right; left; reflexivity.
Qed.

Lemma junk_decodes : env_all reversible list_env /\ reversible (TRef "node") /\
  reversible sample_indexer /\ reversible sample_union /\
  from_bytes 12 list_env (TRef "node")
    [x00; x00; x00; x01; x61; xff; xff; xff; x00; x00; x00; x07;
     x00; x00; x00; x00; x00; x00; x00; x00]
  = Ok (RSeq [RStr [x61]; RSome (RSeq [RStr []; RNone])]).
Proof.
  split; [apply env_all_list; repeat constructor|]. split; [exact I|]. split; [|split; [|reflexivity]].
  - split; [|cbn; tauto]. split.
    + repeat constructor; cbn; intuition discriminate.
    + intros z name b _ [H|[H|[]]]; injection H as <- <-; eexists; (split; [reflexivity|]);
        split; try reflexivity; unfold i32_range; lia.
  - split; [repeat constructor; cbn; intuition discriminate|]. cbn. tauto.
Qed.

Lemma utf8_cases : valid_utf8 [xf0; x9f; x98; x80] /\ ~ valid_utf8 [xed; xa0; x80].
Proof.
  split; [apply utf8_ok_spec; reflexivity|]. rewrite <- utf8_ok_spec. discriminate.
Qed.

Lemma char_cases : unsigned 4 0xD800 [x00; x00; xd8; x00] /\ ~ is_scalar 0xD800 /\ is_scalar 0x1F600.
Proof. split; [split; reflexivity|]. unfold is_scalar. lia. Qed.

Lemma enum_case : signed 4 (-1) [xff; xff; xff; xff] /\
  deser 3 [] (TEnum [("A", VUnit); ("B", VNewtype TBool)]%string)
    [x00; x00; x00; x01; x00; x00; x00; x01] = Ok (RVariant 1 [RBool true], []).
Proof. split; [|reflexivity]. split; [reflexivity|]. right. cbn. lia. Qed.

Lemma str_case : encodes [] TStr (RStr [x61]) [x00; x00; x00; x01; x61; x00; x00; x00] /\
  wire_len TStr (RStr [x61]) = Some 1.
Proof. split; [|reflexivity]. apply returns_to_bytes with 1%nat; [reflexivity|discriminate]. Qed.

Lemma opaque_case : unsigned 4 (zlen [x01; x02; x03; x04; x05]) [x00; x00; x00; x05] /\
  any_pad (zlen [x01; x02; x03; x04; x05]) [x00; x11; x22].
Proof. split; split; reflexivity. Qed.

Lemma occupies_case : occupies list_env (TRef "node") /\
  from_bytes 4 [] (TMap TBool (TInt true W8))
    [x00; x00; x00; x02; x00; x00; x00; x01; x00; x00; x00; x05;
     x00; x00; x00; x00; x00; x00; x00; x06]
  = Ok (RMap [(RBool true, RInt 5); (RBool false, RInt 6)]).
Proof.
  split; [|reflexivity]. eapply oc_ref; [reflexivity|].
  eapply oc_struct with (t := TStr); [now left|constructor].
Qed.

Lemma signed32_case : signed32_inverse [-5; 7] [(-5, 0%nat); (7, 1%nat)] DErr.
Proof.
  split.
  - intros [|[|i]] z H; cbn in H; [| |destruct i; discriminate]; injection H as <-; (split; [unfold i32_range; lia|reflexivity]).
  - intros z i. cbn. destruct (z =? -5); [|destruct (z =? 7)]; intros H; try discriminate; injection H as <-; lia.
Qed.

Lemma indexer_case : supported [] sample_indexer (RVariant 1 [RBool true; RStr [x61]]).
Proof.
  eexists. eapply dn_indexer with (name := "B"%string) (ts := [TBool; TStr]) (z := -1).
  - repeat constructor; cbn; intuition discriminate.
  - reflexivity.
  - reflexivity.
  - unfold i32_range. lia.
  - intros _. cbn. split; [reflexivity|lia].
  - apply dn_cons; [apply dn_bool|]. apply dn_cons; [|apply dn_nil].
    apply dn_str; [apply ascii_valid|]; reflexivity.
Qed.

Lemma union_case : supported [] sample_union (RVariant 1 [RInt 9; RStr [x61]]).
Proof.
  eexists. eapply dn_union with (name := "Default"%string) (ts := [TStr]).
  - repeat constructor; cbn; intuition discriminate.
  - reflexivity.
  - apply dn_int; [cbn; lia|reflexivity].
  - intros _. cbn. split; [reflexivity|lia].
  - apply dn_cons; [|apply dn_nil]. apply dn_str; [apply ascii_valid|]; reflexivity.
Qed.

Lemma nan_case : 0 <= 0x7FC00001 < 2 ^ 32.
Proof. lia. Qed.

Lemma guarded_case : env_guarded 5 list_env /\ guarded 5 list_env true (TRef "node") = true.
Proof. split; [apply env_all_list; repeat constructor|reflexivity]. Qed.

Lemma unguarded_case : forall i,
  diverges (fun n => from_bytes n [("loop"%string, TBox (TRef "loop"))] (TRef "loop") i).
Proof.
  intros i. set (E := [("loop"%string, TBox (TRef "loop"))]).
  assert (H : forall n, deser n E (TRef "loop") i = Fuel /\ deser n E (TBox (TRef "loop")) i = Fuel).
  { induction n as [|n [IH1 IH2]]; split; try reflexivity; assumption. }
  intros n. unfold from_bytes. destruct (H n) as [-> _]. reflexivity.
Qed.

Lemma pad_case : any_pad (zlen [x61]) [x00; x00; x00] /\ any_pad (zlen [x61]) [x01; xff; x61].
Proof. split; split; reflexivity. Qed.
