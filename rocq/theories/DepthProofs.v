(** Proofs about the nesting depth of decoding (C96). *)
From Verif Require Import Base SpecUtf8 SerModel RustTypes DeModel SpecXdr SpecTypes SpecDecode ReadFacts
  XdrFacts RvalFacts DecProofs TotalProofs CodecProofs CodecLemmas SpecWork.
Set Implicit Arguments. Unset Strict Implicit.
Local Open Scope list_scope.

Lemma deser_shallow E : forall n t i, shallow n E t = true -> deser n E t i <> Fuel.
Proof.
  induction n as [|n IH]; intros t i G; [discriminate|]. cbn [shallow] in G. rewrite forallb_forall in G.
  assert (Hsame : forall L u, In u (inner E t) -> short L (deser n E u)).
  { intros L u Hu j Hj. split; [now apply IH, G|]. intros a r. apply deser_shorter. }
  assert (Hsames : forall L ts, (forall u, In u ts -> In u (inner E t)) -> Forall (short L) (map (deser n E) ts)).
  { intros L ts F. apply Forall_forall. intros p Hp. apply in_map_iff in Hp as (t' & <- & I). auto. }
  assert (Word : forall j r z, read_u32 j = Ok (z, r) -> 0 <= z).
  { intros j r z Hr. apply read_u32_inv in Hr as (w & -> & U). pose proof (unsigned_range U). lia. }
  clear IH G.
  destruct t; cbn [deser];
    try discriminate;
    try (apply bind_nofuel; [|intros [? ?] _; discriminate];
         auto using read_u32_nofuel, read_u64_nofuel, de_int_nofuel, read_string_nofuel, read_bytes_nofuel).
  - (* char *)
    apply bind_nofuel; [apply read_u32_nofuel|]. intros [z j] _.
    destruct (Utf8.char_ok z); discriminate.
  - (* option *)
    apply bind_nofuel; [apply read_u32_nofuel|]. intros [z j] _.
    destruct (z =? 0); [discriminate|]. apply bind_nofuel; [|intros [? ?] _; discriminate].
    apply (Hsame (zlen j)); [now left|lia].
  - apply (Hsame (zlen i)); [now left|lia].
  - apply (Hsame (zlen i)); [now left|lia].
  - (* seq *)
    apply bind_nofuel; [apply read_u32_nofuel|]. intros [z j] Hr. apply Word in Hr.
    apply bind_nofuel; [|intros [? ?] _; discriminate].
    replace z with (Z.of_nat (Z.to_nat z)) by lia. rewrite visit_vec_seq.
    apply read_seq_nofuel with (L := zlen j); [|lia].
    apply Forall_forall. intros p Hp. apply repeat_spec in Hp. subst p. apply Hsame. now left.
  - (* array *)
    apply visit_fields_nofuel with (L := zlen i); [|lia].
    apply Forall_forall. intros p Hp. apply repeat_spec in Hp. subst p. apply Hsame. now left.
  - apply visit_fields_nofuel with (L := zlen i); [apply Hsames; auto|lia].
  - apply visit_fields_nofuel with (L := zlen i); [apply Hsames; auto|lia].
  - apply visit_fields_nofuel with (L := zlen i); [|lia].
    rewrite <- (map_map snd (deser n E)). apply Hsames. auto.
  - (* map *)
    apply bind_nofuel; [apply read_u32_nofuel|]. intros [z j] Hr. apply Word in Hr.
    apply bind_nofuel; [|intros [? ?] _; discriminate].
    replace z with (Z.of_nat (Z.to_nat z)) by lia. rewrite visit_map_seq.
    apply bind_nofuel; [|intros [? ?] _; discriminate].
    apply read_seq_nofuel with (L := zlen j); [|lia].
    apply Forall_forall. intros p Hp. apply repeat_spec in Hp. subst p.
    intros x Hx. pose proof (Hsame (zlen j) t1 ltac:(now left)) as S1. pose proof (Hsame (zlen j) t2 ltac:(right; now left)) as S2.
    destruct (S1 x Hx) as [F1 R1]. split.
    + apply bind_nofuel; [exact F1|]. intros [k y] Ey. apply R1 in Ey.
      apply bind_nofuel; [apply S2; lia|]. intros [? ?] _; discriminate.
    + intros [k v] r Hkv. apply bind_ok in Hkv as ([k' y] & H1 & H2).
      apply bind_ok in H2 as ([v' y'] & H2 & H3). injection H3 as -> -> ->.
      apply deser_shorter in H1, H2. lia.
  - (* enum *)
    apply bind_nofuel; [apply de_variant_index_nofuel|]. intros [k j] _.
    destruct (nth_error vs k) as [[name sh]|] eqn:Hn; [|discriminate]. apply nth_error_In in Hn.
    assert (Hin : forall u, In u match sh with VUnit => [] | VNewtype t => [t] | VTuple ts => ts | VStruct ts => map snd ts end ->
              In u (inner E (TEnum vs))).
    { intros u Hu. cbn. apply in_flat_map. exists (name, sh). now split. }
    destruct sh as [|t|ts|ts]; try discriminate;
      (apply bind_nofuel; [|intros [? ?] _; discriminate]).
    + apply (Hsame (zlen j)); [apply Hin; now left|lia].
    + apply visit_fields_nofuel with (L := zlen j); [apply Hsames; assumption|lia].
    + apply visit_fields_nofuel with (L := zlen j); [|lia].
      rewrite <- (map_map snd (deser n E)). apply Hsames; assumption.
  - (* fixed opaque *)
    destruct (de_opaque_fixed_cases n0 i) as [(bs & p & r & _ & _ & _ & _ & ->)|[_ ->]]; discriminate.
  - (* opaque *)
    apply bind_nofuel; [apply read_u32_nofuel|]. intros [z j] Hr. apply Word in Hr.
    destruct (@enumerate_u8_cases z j Hr) as [(bs & p & r & _ & _ & _ & _ & ->)|[_ ->]]; discriminate.
  - (* signed32 *)
    apply bind_nofuel; [apply read_i32_nofuel|]. intros [z j] _.
    destruct (with_dflt (assoc Z.eqb z try_from) d); discriminate.
  - (* indexer *)
    unfold next_element. cbn [Z.eqb].
    destruct (read_i32 i) as [[z j]| | | |] eqn:Hr; try discriminate; [|now apply read_i32_nofuel in Hr].
    cbn [bind].
    destruct (with_dflt (assoc Z.eqb z names) d) as [name| |]; try discriminate.
    destruct (find_variant name vs 0) as [[k ts]|] eqn:Hf; [|discriminate].
    apply find_variant_spec in Hf as (x & _ & Hn & _). apply nth_error_In in Hn.
    apply bind_nofuel; [|intros [? ?] _; discriminate].
    apply visit_fields_unwrap_nofuel with (L := zlen j); [|lia]. apply Hsames.
    intros u Hu. cbn. apply in_flat_map. eexists. split; [exact Hn|exact Hu].
  - (* union *)
    unfold next_element. cbn [Z.eqb].
    destruct (Hsame (zlen i) t ltac:(now left) i ltac:(lia)) as [F1 R1].
    destruct (deser n E t i) as [[v j]| | | |] eqn:Hr; try discriminate; [|contradiction].
    specialize (R1 v j eq_refl). cbn [bind].
    destruct (with_dflt (assoc rval_eqb v names) d) as [name| |]; try discriminate.
    destruct (find_variant name vs 0) as [[k [ts|]]|] eqn:Hf; try discriminate.
    apply find_variant_spec in Hf as (x & _ & Hn & _). apply nth_error_In in Hn.
    apply bind_nofuel; [|intros [? ?] _; discriminate].
    apply visit_fields_unwrap_nofuel with (L := zlen i); [|lia]. apply Hsames.
    intros u Hu. cbn. right. apply in_flat_map. eexists. split; [exact Hn|exact Hu].
  - (* ref *)
    destruct (lookup E name) as [t'|] eqn:Hl; [|discriminate].
    apply (Hsame (zlen i)); [|lia]. cbn. rewrite Hl. now left.
Qed.

Lemma c96_shallow d E t : shallow d E t = true -> forall i,
  from_bytes d E t i <> Fuel /\ forall n, (d <= n)%nat -> from_bytes n E t i = from_bytes d E t i.
Proof.
  intros G i.
  assert (F : from_bytes d E t i <> Fuel).
  { apply bind_nofuel; [now apply deser_shallow|]. intros [v r] _. destruct r; discriminate. }
  split; [exact F|]. intros n Hn. now apply from_bytes_mono.
Qed.
