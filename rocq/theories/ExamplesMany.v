(** Concrete cases for the theorems of PropsMany. *)
From Verif Require Import Base SpecUtf8 SerModel RustTypes DeModel SpecXdr SpecTypes SpecMisc ExamplesCodec.
Local Open Scope list_scope.

Lemma text_supported : supported [] TStr (RStr [x61]).
Proof. eexists. apply dn_str; [apply ascii_valid|]; reflexivity. Qed.
Lemma indexer_sample : exists vss index names d name ts z, sample_indexer = TIndexer vss index names d /\
  NoDup (map fst vss) /\ nth_error vss 1 = Some (name, ts) /\
  assoc String.eqb name index = Some z /\ i32_range z /\
  with_dflt (assoc Z.eqb z names) d = DVal name /\ Forall2 (supported []) ts [RBool true; RStr [x61]] /\
  from_bytes 9 [] sample_indexer [xff; xff; xff; xff; x00; x00; x00; x01; x00; x00; x00; x01; x61; x00; x00; x00] =
    Ok (RVariant 1 [RBool true; RStr [x61]]).
Proof.
  eexists _, _, _, _, "B"%string, [TBool; TStr], (-1). split; [reflexivity|].
  split; [repeat constructor; cbn; intuition discriminate|]. split; [reflexivity|]. split; [reflexivity|].
  split; [unfold i32_range; lia|]. split; [reflexivity|]. split; [|vm_compute; reflexivity].
  constructor; [eexists; apply dn_bool|]. constructor; [exact text_supported|constructor].
Qed.
Lemma union_sample : exists vss disc names d name ts, sample_union = TUnion vss disc names d /\
  NoDup (map fst vss) /\ nth_error vss 1 = Some (name, Some ts) /\
  with_dflt (assoc rval_eqb (RInt 9) names) d = DVal name /\
  supported [] disc (RInt 9) /\ Forall2 (supported []) ts [RStr [x61]] /\
  from_bytes 9 [] sample_union [x00; x00; x00; x09; x00; x00; x00; x01; x61; x00; x00; x00] =
    Ok (RVariant 1 [RInt 9; RStr [x61]]).
Proof.
  eexists _, _, _, _, "Default"%string, [TStr]. split; [reflexivity|].
  split; [repeat constructor; cbn; intuition discriminate|]. split; [reflexivity|]. split; [reflexivity|].
  split; [eexists; apply dn_int; [cbn; lia|reflexivity]|]. split; [|vm_compute; reflexivity].
  constructor; [exact text_supported|constructor].
Qed.
