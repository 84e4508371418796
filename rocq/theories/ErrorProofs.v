(** C114: exactly the errors of the decoder. *)
From Verif Require Import Base SpecUtf8 Utf8 Utf8Proofs RustTypes SpecXdr SpecTypes SpecDecode SpecMisc XdrFacts RvalFacts SerModel DeModel ReadFacts DecProofs
  CodecProofs TotalProofs NormProofs SpecAlike SpecPanic PanicProofs SpecError.
Set Implicit Arguments.
Unset Strict Implicit.
Local Open Scope list_scope.

Lemma bind_err {A B} (r : res A) (f : A -> res B) e : bind r f = Err e -> r = Err e \/ exists a, r = Ok a /\ f a = Err e.
Proof. destruct r; cbn; intros H; try discriminate; eauto. left. now injection H as ->. Qed.

Lemma read_err k i e : 0 <= k -> read k i = Err e <-> zlen i < k /\ e = ENotEnoughData (k - zlen i).
Proof.
  intros K. destruct (read_cases i K) as [(a & r & -> & L & Q)|[L Q]]; rewrite Q.
  - split; [discriminate|]. intros [L' _]. rewrite zlen_app in L'. pose proof (zlen_nonneg r). lia.
  - split; [intros H; injection H as <-; auto|intros [_ ->]; easy].
Qed.
Lemma u32_err i e : read_u32 i = Err e <-> zlen i < 4 /\ e = ENotEnoughData (4 - zlen i).
Proof.
  rewrite <- read_err by lia. unfold read_u32. split; [|intros ->; easy].
  intros H. apply bind_err in H as [H|([v j] & _ & H)]; [easy|discriminate].
Qed.
Lemma i32_err i e : read_i32 i = Err e <-> zlen i < 4 /\ e = ENotEnoughData (4 - zlen i).
Proof.
  rewrite <- read_err by lia. unfold read_i32. split; [|intros ->; easy].
  intros H. apply bind_err in H as [H|([v j] & _ & H)]; [easy|discriminate].
Qed.
Lemma u64_err i e : read_u64 i = Err e <-> zlen i < 8 /\ e = ENotEnoughData (8 - zlen i).
Proof.
  rewrite <- read_err by lia. unfold read_u64. split; [|intros ->; easy].
  intros H. apply bind_err in H as [H|([v j] & _ & H)]; [easy|discriminate].
Qed.
Lemma i64_err i e : read_i64 i = Err e <-> zlen i < 8 /\ e = ENotEnoughData (8 - zlen i).
Proof.
  rewrite <- read_err by lia. unfold read_i64. split; [|intros ->; easy].
  intros H. apply bind_err in H as [H|([v j] & _ & H)]; [easy|discriminate].
Qed.
Lemma int_err s w i e : de_int s w i = Err e <->
  w = W128 /\ e = ECustom MUnsupported128 \/ w <> W128 /\ zlen i < Z.of_nat (int_bytes w) /\ e = ENotEnoughData (Z.of_nat (int_bytes w) - zlen i).
Proof.
  split.
  - intros H. destruct s, w; cbn [de_int int_bytes] in *; try (left; split; congruence); right; (split; [discriminate|]);
      first [ now apply u64_err in H | now apply i64_err in H
            | now apply u32_err in H | now apply i32_err in H
            | apply bind_err in H as [H|([z j] & _ & H)]; [|discriminate]; first [now apply u32_err in H | now apply i32_err in H] ].
  - intros [[-> ->]|(N & H)]; [now destruct s|].
    destruct s, w; cbn [de_int int_bytes] in *; try contradiction;
      first [now apply i32_err in H; rewrite H | now apply u32_err in H; rewrite H | now apply i64_err | now apply u64_err].
Qed.
Lemma slice_noerr n i e : slice_from n i <> Err e.
Proof. unfold slice_from. destruct (zlen i <? n); discriminate. Qed.

Lemma lacks_spec size i : 0 <= size -> lacks_unit size i <-> zlen i < 4 * ((size + 3) / 4).
Proof.
  intros S. pose proof (Z.div_mod (size + 3) 4). pose proof (Z.mod_pos_bound (size + 3) 4).
  split.
  - intros (m & M & L & K). pose proof (Z.div_mod m 4). lia.
  - intros L. exists (4 * ((size + 3) / 4)). split; [rewrite Z.mul_comm; now apply Z.mod_mul|]. lia.
Qed.
Lemma enumerate_err size i e : 0 <= size -> enumerate_u8 (size, i) = Err e <-> lacks_unit size i /\ e = ENotEnoughData (4 - zlen i mod 4).
Proof.
  intros S. rewrite lacks_spec by easy. destruct (@enumerate_u8_cases size i S) as [(bs & p & r & -> & L & M & P & Q)|[L Q]]; rewrite Q.
  - split; [discriminate|]. intros [L' _]. rewrite !zlen_app in L'. pose proof (zlen_nonneg r). pose proof (zlen_nonneg p).
    pose proof (Z.div_mod (size + zlen p) 4). pose proof (Z.div_mod (size + 3) 4). pose proof (Z.mod_pos_bound (size + 3) 4). lia.
  - split; [intros H; injection H as <-; auto|intros [_ ->]; easy].
Qed.

(** ** Only those errors *)
Section Only.
  Variables (n : nat) (E : env).
  Hypothesis IH : forall t i e, deser n E t i = Err e -> fails E t i e.

  Lemma seq_fails ts : forall i e, read_seq (map (deser n E) ts) i = Err e -> fails_in E ts i e.
  Proof using IH.
    induction ts as [|t ts IHs]; intros i e H; cbn in H; [discriminate|].
    apply bind_err in H as [H|([v j] & D & H)]; [apply fi_here; auto|].
    apply bind_err in H as [H|([l r] & _ & H)]; [|discriminate].
    apply deser_accepts in D as (c & -> & A). now apply fi_later with v; auto.
  Qed.
  Lemma repeat_fails t k : forall i e, read_seq (repeat (deser n E t) k) i = Err e ->
    exists vs b c, i = b ++ c /\ (length vs < k)%nat /\ accepts_all E (repeat t (length vs)) vs b /\ fails E t c e.
  Proof using IH.
    induction k as [|k IHk]; intros i e H; cbn in H; [discriminate|].
    apply bind_err in H as [H|([v j] & D & H)].
    { exists [], [], i. split; [easy|]. split; [cbn; lia|]. split; [constructor|auto]. }
    apply bind_err in H as [H|([l r] & _ & H)]; [|discriminate].
    apply deser_accepts in D as (d & -> & A). apply IHk in H as (vs & b & c & -> & L & As & P).
    exists (v :: vs), (d ++ b), c. split; [now rewrite app_assoc|]. split; [cbn; lia|]. split; [now constructor|easy].
  Qed.
  Lemma pairs_fail tk tv k : forall i e,
    read_seq (repeat (fun i => '(k, i) <- deser n E tk i;; '(v, i) <- deser n E tv i;; Ok ((k, v), i)) k) i = Err e ->
    exists kvs b c, i = b ++ c /\ (length kvs < k)%nat /\
      accepts_all E (flat_map (fun _ => [tk; tv]) kvs) (flat_map (fun '(k, v) => [k; v]) kvs) b /\ fails_in E [tk; tv] c e.
  Proof using IH.
    induction k as [|k IHk]; intros i e H; cbn in H; [discriminate|].
    apply bind_err in H as [H|([[x y] j] & D & H)].
    { exists [], [], i. split; [easy|]. split; [cbn; lia|]. split; [constructor|].
      apply bind_err in H as [H|([x j] & D & H)]; [apply fi_here; auto|].
      apply bind_err in H as [H|([y r] & _ & H)]; [|discriminate].
      apply deser_accepts in D as (d & -> & A). apply fi_later with x; [easy|]. apply fi_here; auto. }
    apply bind_err in H as [H|([l r] & _ & H)]; [|discriminate].
    apply bind_ok in D as ([x' j1] & D1 & D). apply bind_ok in D as ([y' j2] & D2 & D). injection D as -> -> ->.
    apply deser_accepts in D1 as (d1 & -> & A1). apply deser_accepts in D2 as (d2 & -> & A2).
    apply IHk in H as (kvs & b & c & -> & L & As & P).
    exists ((x, y) :: kvs), (d1 ++ d2 ++ b), c. split; [now rewrite !app_assoc|]. split; [cbn; lia|]. split; [|easy].
    cbn. constructor; [easy|]. now constructor.
  Qed.
  Lemma unwrap_fails ts : forall k i e, visit_fields_unwrap (map (deser n E) ts) (Z.of_nat k, i) = Err e -> fails_in E (firstn k ts) i e.
  Proof using IH.
    induction ts as [|t ts IHs]; intros k i e H; cbn [map visit_fields_unwrap] in H; [discriminate|].
    unfold next_element in H. destruct (Z.eqb_spec (Z.of_nat k) 0) as [K|K]; [discriminate|].
    destruct k as [|k]; [lia|]. replace (Z.of_nat (Datatypes.S k) - 1) with (Z.of_nat k) in H by lia. cbn [firstn].
    destruct (deser n E t i) as [[v j]| | | |] eqn:D; cbn [bind] in H; try discriminate; [|injection H as ->; apply fi_here; auto].
    apply deser_accepts in D as (d & -> & A).
    apply bind_err in H as [H|([l r] & _ & H)]; [|discriminate]. apply IHs in H. now apply fi_later with v.
  Qed.
  Lemma fields_fail ts pos i e : visit_fields (map (deser n E) ts) pos (zlen ts, i) = Err e -> fails_in E ts i e.
  Proof using IH.
    intros H. rewrite visit_fields_seq in H by (unfold zlen; rewrite map_length; lia).
    apply bind_err in H as [H|([l r] & _ & H)]; [|discriminate]. now apply seq_fails.
  Qed.
End Only.

Lemma word_fails E t i e : first_word t = Some 4 -> zlen i < 4 /\ e = ENotEnoughData (4 - zlen i) -> fails E t i e.
Proof. intros F [L ->]. now apply fl_word. Qed.

Lemma fail_only E : forall n t i e, deser n E t i = Err e -> fails E t i e.
Proof.
  induction n as [|n IH]; intros t i e H; [discriminate|].
  pose proof (fields_fail IH) as FP. pose proof (@word_fails E) as WF.
  destruct t as [| | | | | | |t| | |t|t|t|k t|ts|ts|fs|tk tv|vss|k| |a tf d|vss a names d|vss disc names d|x]; cbn [deser] in H; try discriminate.
  - apply bind_err in H as [H|([z j] & _ & H)]; [|discriminate]. apply u32_err in H. now apply WF.
  - apply bind_err in H as [H|([z j] & _ & H)]; [|discriminate]. apply int_err in H as [[-> ->]|(N & L & ->)]; [apply fl_128|].
    apply fl_word; [|easy]. destruct w; easy.
  - apply bind_err in H as [H|([z j] & _ & H)]; [|discriminate]. apply u32_err in H. now apply WF.
  - apply bind_err in H as [H|([z j] & _ & H)]; [|discriminate]. apply u64_err in H as [L ->]. now apply fl_word.
  - apply bind_err in H as [H|([z j] & _ & H)]; [|discriminate]. unfold read_char in H.
    apply bind_err in H as [H|([z j] & R & H)]; [apply u32_err in H; now apply WF|].
    apply read_u32_inv in R as (w & -> & U). destruct (char_ok z) eqn:C; [discriminate|]. injection H as <-.
    apply fl_char with z; [easy|]. intros S. apply char_ok_spec in S. congruence.
  - apply bind_err in H as [H|([z j] & _ & H)]; [|discriminate]. unfold read_string in H.
    apply bind_err in H as [H|([z j] & R & H)]; [apply u32_err in H; now apply WF|].
    apply read_u32_inv in R as (w & -> & U). pose proof (unsigned_range U).
    apply bind_err in H as [H|([v k] & R & H)]; [apply read_err in H as [L ->]; [|lia]; now apply fl_str|].
    apply read_inv in R as [-> L]; [|lia]. subst z. destruct (utf8_ok v) eqn:V.
    + destruct (4 - zlen v mod 4 <? 4); [|discriminate]. apply bind_err in H as [H|(? & _ & H)]; [now apply slice_noerr in H|discriminate].
    + injection H as <-. apply fl_utf8; [easy|]. intros S. apply utf8_ok_spec in S. congruence.
  - apply bind_err in H as [H|([z j] & _ & H)]; [|discriminate]. unfold read_bytes in H.
    apply bind_err in H as [H|([z j] & R & H)]; [apply u32_err in H; now apply WF|].
    apply read_u32_inv in R as (w & -> & U). pose proof (unsigned_range U).
    apply bind_err in H as [H|([v k] & R & H)]; [apply read_err in H as [L ->]; [|lia]; now apply fl_bytes|].
    destruct (4 - z mod 4 <? 4); [|discriminate]. apply bind_err in H as [H|(? & _ & H)]; [now apply slice_noerr in H|discriminate].
  - apply bind_err in H as [H|([z j] & R & H)]; [apply u32_err in H; now apply WF|].
    apply read_u32_inv in R as (w & -> & U). destruct (Z.eqb_spec z 0); [discriminate|].
    apply bind_err in H as [H|([v r] & _ & H)]; [|discriminate]. apply fl_some with z; auto.
  - apply fl_newtype. auto.
  - apply fl_box. auto.
  - apply bind_err in H as [H|([z j] & R & H)]; [apply u32_err in H; now apply WF|].
    apply read_u32_inv in R as (w & -> & U). pose proof (unsigned_range U).
    apply bind_err in H as [H|([v r] & _ & H)]; [|discriminate].
    replace z with (Z.of_nat (Z.to_nat z)) in H by lia. rewrite visit_vec_seq in H.
    apply (repeat_fails IH) in H as (vs & b & c & -> & L & As & P). apply fl_seq with z vs; auto. unfold zlen. lia.
  - apply bind_err in H as [H|([v r] & _ & H)]; [|discriminate]. apply fl_product with (repeat t k); [constructor|].
    rewrite <- map_repeat in H. apply FP with 0. unfold zlen. now rewrite repeat_length.
  - apply bind_err in H as [H|([v r] & _ & H)]; [|discriminate]. apply fl_product with ts; [constructor|]. now apply FP with 0.
  - apply bind_err in H as [H|([v r] & _ & H)]; [|discriminate]. apply fl_product with ts; [constructor|]. now apply FP with 0.
  - apply bind_err in H as [H|([v r] & _ & H)]; [|discriminate]. apply fl_product with (map snd fs); [constructor|].
    rewrite <- (map_map snd (deser n E)) in H. apply FP with 0. unfold zlen in *. now rewrite map_length.
  - apply bind_err in H as [H|([z j] & R & H)]; [apply u32_err in H; now apply WF|].
    apply read_u32_inv in R as (w & -> & U). pose proof (unsigned_range U).
    apply bind_err in H as [H|([v r] & _ & H)]; [|discriminate].
    replace z with (Z.of_nat (Z.to_nat z)) in H by lia. rewrite visit_map_seq in H.
    apply bind_err in H as [H|([v r] & _ & H)]; [|discriminate].
    apply (pairs_fail IH) in H as (kvs & b & c & -> & L & As & P). apply fl_map with z kvs; auto. unfold zlen. lia.
  - apply bind_err in H as [H|([k j] & R & H)].
    { unfold de_variant_index in H. apply bind_err in H as [H|([z j] & R & H)]; [apply i32_err in H; now apply WF|].
      apply read_i32_inv in R as (w & -> & U). destruct (Z.ltb_spec z 0); [injection H as <-; now apply fl_negative with z|].
      destruct (Z.ltb_spec z (Z.of_nat (length vss))); [discriminate|]. injection H as <-. now apply fl_no_variant. }
    apply de_variant_index_inv in R as (w & -> & U & L & _).
    destruct (nth_error vss k) as [[x s]|] eqn:N; [|discriminate].
    destruct s as [|t|ts|fs]; [discriminate| | |]; (apply bind_err in H as [H|([v r] & _ & H)]; [|discriminate]);
      (eapply fl_variant; [eassumption|assumption|eassumption|]); cbn [shape_types].
    + apply fi_here. auto.
    + now apply FP with 0.
    + rewrite <- (map_map snd (deser n E)) in H. apply FP with 0. unfold zlen in *. now rewrite map_length.
  - apply bind_err in H as [H|([z j] & _ & H)]; [|discriminate].
    destruct (de_opaque_fixed_cases k i) as [(bs & p & r & _ & _ & _ & _ & Q)|[L Q]]; rewrite Q in H; [discriminate|]. injection H as <-.
    apply fl_fopaque. apply lacks_spec; [lia|easy].
  - apply bind_err in H as [H|([z j] & R & H)]; [|discriminate]. unfold de_opaque_variable in H.
    apply bind_err in H as [H|([z j] & R & H)]; [apply u32_err in H; now apply WF|].
    apply read_u32_inv in R as (w & -> & U). pose proof (unsigned_range U). apply enumerate_err in H as [L ->]; [|lia]. now apply fl_opaque with z.
  - apply bind_err in H as [H|([z j] & R & H)]; [apply i32_err in H; now apply WF|].
    apply read_i32_inv in R as (w & -> & U). destruct (with_dflt (assoc Z.eqb z tf) d) eqn:D; try discriminate. injection H as <-.
    now apply fl_signed32.
  - unfold next_element in H. cbn [Z.eqb] in H. destruct (read_i32 i) as [[z j]| | | |] eqn:R; cbn [bind] in H; try discriminate;
      [|injection H as ->; apply i32_err in R; now apply WF]. apply read_i32_inv in R as (w & -> & U).
    destruct (with_dflt (assoc Z.eqb z names) d) as [name| |] eqn:D; try discriminate; [|injection H as <-; now apply fl_indexer_table].
    destruct (find_variant name vss 0) as [[k ts]|] eqn:F; [|discriminate].
    apply bind_err in H as [H|([l s] & _ & H)]; [|discriminate]. apply find_first in F.
    eapply fl_indexer; eauto. now apply (unwrap_fails IH (k := 9)).
  - unfold next_element in H. cbn [Z.eqb] in H. destruct (deser n E disc i) as [[v j]| | | |] eqn:R; cbn [bind] in H; try discriminate;
      [|injection H as ->; apply fl_disc; auto]. apply deser_accepts in R as (w & -> & A).
    destruct (with_dflt (assoc rval_eqb v names) d) as [name| |] eqn:D; try discriminate; [|injection H as <-; now apply fl_union_table with v].
    destruct (find_variant name vss 0) as [[k [ts|]]|] eqn:F; [|discriminate|discriminate].
    apply bind_err in H as [H|([l s] & _ & H)]; [|discriminate]. apply find_first in F.
    eapply fl_union; eauto. now apply (unwrap_fails IH (k := 9)).
  - destruct (lookup E x) as [t|] eqn:L; [|discriminate]. apply fl_ref with t; auto.
Qed.

(** ** All of those errors *)
Lemma chain_err {A} (ps : list (parser A)) l b p qs c e : chain ps l b -> p c = Err e -> read_seq (ps ++ p :: qs) (b ++ c) = Err e.
Proof.
  intros H P. induction H as [|q ps a l b bs Hq _ IH]; cbn [app read_seq]; [now rewrite P|].
  rewrite <- app_assoc, Hq. cbn [bind]. now rewrite IH.
Qed.
Lemma firstn_err {A} (ps : list (parser A)) : forall k i e, read_seq (firstn k ps) i = Err e ->
  visit_fields_unwrap ps (Z.of_nat k, i) = Err e.
Proof.
  induction ps as [|p ps IH]; intros [|k] i e H; cbn [firstn read_seq] in H; try discriminate.
  cbn [visit_fields_unwrap]. unfold next_element. destruct (Z.eqb_spec (Z.of_nat (Datatypes.S k)) 0); [lia|].
  apply bind_err in H as [H|([a j] & P & H)]; [now rewrite H|]. rewrite P. cbn [bind].
  replace (Z.of_nat (Datatypes.S k) - 1) with (Z.of_nat k) by lia.
  apply bind_err in H as [H|([l r] & _ & H)]; [|discriminate]. now rewrite (IH k j e H).
Qed.
Lemma fields_seq_err {A} (ps : list (parser A)) pos c i e : zlen ps <= c -> read_seq ps i = Err e -> visit_fields ps pos (c, i) = Err e.
Proof. intros L H. rewrite visit_fields_seq by easy. now rewrite H. Qed.

Definition fails_from (E : env) t i e := exists N, forall n, (N <= n)%nat -> deser n E t i = Err e.

Lemma word_errors E t k i : first_word t = Some k -> zlen i < k -> fails_from E t i (ENotEnoughData (k - zlen i)).
Proof.
  intros F L.
  assert (U4 : k = 4 -> read_u32 i = Err (ENotEnoughData (k - zlen i))) by (intros ->; now apply u32_err).
  assert (I4 : k = 4 -> read_i32 i = Err (ENotEnoughData (k - zlen i))) by (intros ->; now apply i32_err).
  assert (U8 : k = 8 -> read_u64 i = Err (ENotEnoughData (k - zlen i))) by (intros ->; now apply u64_err).
  destruct t as [|s w| | | | | |t| | |t|t|t|m t|ts|ts|fs|tk tv|vss|m| |a tf d|vss a names d|vss disc names d|x]; try discriminate F;
    try (injection F as <-; specialize (U4 eq_refl); specialize (I4 eq_refl)); fuel 0%nat.
  - now rewrite U4.
  - assert (Q : de_int s w i = Err (ENotEnoughData (k - zlen i))).
    { apply int_err. right. destruct w; try discriminate F; injection F as <-; (split; [discriminate|]); split; easy. }
    now rewrite Q.
  - change read_f32 with read_u32. now rewrite U4.
  - injection F as <-. change read_f64 with read_u64. now rewrite U8.
  - unfold read_char. now rewrite U4.
  - unfold read_string. now rewrite U4.
  - unfold read_bytes. now rewrite U4.
  - now rewrite U4.
  - now rewrite U4.
  - now rewrite U4.
  - unfold de_variant_index. now rewrite I4.
  - unfold de_opaque_variable. now rewrite U4.
  - now rewrite I4.
  - unfold next_element. cbn [Z.eqb]. now rewrite I4.
Qed.

Lemma fail_all E :
  (forall t i e, fails E t i e -> fails_from E t i e) /\
  (forall ts i e, fails_in E ts i e -> exists N, forall n, (N <= n)%nat -> read_seq (map (deser n E) ts) i = Err e).
Proof.
  apply fails_fails_in_ind; unfold fails_from.
  - intros t k i F L. now apply word_errors.
  - intros s i. fuel 0%nat. now destruct s.
  - intros c w r U S. fuel 0%nat. unfold read_char. rewrite (read_u32_app _ U). cbn [bind].
    destruct (char_ok c) eqn:C; [|easy]. now apply char_ok_spec in C.
  - intros z m bs U L. fuel 0%nat. unfold read_string. rewrite (read_u32_app _ U). cbn [bind].
    pose proof (unsigned_range U). now rewrite (proj2 (@read_err z bs _ ltac:(lia)) (conj L eq_refl)).
  - intros m bs r U V. fuel 0%nat. unfold read_string. rewrite (read_u32_app _ U). cbn [bind]. rewrite read_app by easy. cbn [bind].
    destruct (utf8_ok bs) eqn:C; [|easy]. now apply utf8_ok_spec in C.
  - intros z m bs U L. fuel 0%nat. unfold read_bytes. rewrite (read_u32_app _ U). cbn [bind].
    pose proof (unsigned_range U). now rewrite (proj2 (@read_err z bs _ ltac:(lia)) (conj L eq_refl)).
  - intros k i L. fuel 0%nat. unfold de_opaque_fixed. now rewrite (proj2 (@enumerate_err (Z.of_nat k) i _ ltac:(lia)) (conj L eq_refl)).
  - intros z m i U L. fuel 0%nat. unfold de_opaque_variable. rewrite (read_u32_app _ U). cbn [bind].
    pose proof (unsigned_range U). now rewrite (proj2 (@enumerate_err z i _ ltac:(lia)) (conj L eq_refl)).
  - intros t w z c e U Z0 _ [N IH]. fuel N. rewrite (read_u32_app _ U). cbn [bind]. destruct (Z.eqb_spec z 0); [easy|]. rewrite IH by lia. easy.
  - intros t c e _ [N IH]. fuel N. apply IH. lia.
  - intros t c e _ [N IH]. fuel N. apply IH. lia.
  - intros x t c e L _ [N IH]. fuel N. rewrite L. apply IH. lia.
  - intros ts t c e P _ [N IH]. fuel N. specialize (IH n ltac:(lia)). destruct P.
    + rewrite (@fields_seq_err _ _ _ _ _ e); [easy|unfold zlen; rewrite map_length; lia|easy].
    + rewrite (@fields_seq_err _ _ _ _ _ e); [easy|unfold zlen; rewrite map_length; lia|easy].
    + rewrite <- (map_map snd (deser n E)). rewrite (@fields_seq_err _ _ _ _ _ e); [easy|unfold zlen; rewrite !map_length; lia|easy].
    + rewrite <- map_repeat. rewrite (@fields_seq_err _ _ _ _ _ e); [easy|unfold zlen; rewrite map_length, repeat_length; lia|easy].
  - intros t w z vs b c e U L A _ [N IH]. apply (proj2 (dec_main E)) in A as [M A].
    fuel (N + M)%nat. rewrite (read_u32_app _ U). cbn [bind]. replace z with (Z.of_nat (Z.to_nat z)) by (unfold zlen in L; lia).
    rewrite visit_vec_seq. specialize (A n ltac:(lia)). rewrite map_repeat in A.
    rewrite (@repeat_split _ (deser n E t) (length vs)) by (unfold zlen in L; lia).
    rewrite (chain_err (e := e) _ A); [easy|]. apply IH. lia.
  - intros tk tv w z kvs b c e U L A _ [N IH]. apply (proj2 (dec_main E)) in A as [M A].
    fuel (N + M)%nat. rewrite (read_u32_app _ U). cbn [bind]. replace z with (Z.of_nat (Z.to_nat z)) by (unfold zlen in L; lia).
    rewrite visit_map_seq. specialize (A n ltac:(lia)). rewrite map_flat_map in A. cbn [map] in A. apply chain_pairs in A.
    rewrite (@repeat_split _ (fun i => '(k, i) <- deser n E tk i;; '(v, i) <- deser n E tv i;; Ok ((k, v), i)) (length kvs)) by (unfold zlen in L; lia).
    rewrite (chain_err (e := e) _ A); [easy|]. specialize (IH n ltac:(lia)). cbn [map read_seq] in IH.
    apply bind_err in IH as [IH|([x j] & D & IH)]; [now rewrite IH|]. rewrite D. cbn [bind].
    apply bind_err in IH as [IH|([l r] & _ & IH)]; [|discriminate]. now apply bind_err in IH as [->|([y r] & _ & IH)].
  - intros vss z w r U L. fuel 0%nat. unfold de_variant_index. rewrite (read_i32_app _ U). cbn [bind].
    destruct (Z.ltb_spec z 0); [easy|lia].
  - intros vss z w r U L. fuel 0%nat. unfold de_variant_index. rewrite (read_i32_app _ U). cbn [bind]. pose proof (zlen_nonneg vss).
    destruct (Z.ltb_spec z 0); [lia|]. unfold zlen in *. destruct (Z.ltb_spec z (Z.of_nat (length vss))); [lia|easy].
  - intros vss i x s w c e U L N _ [K IH]. fuel K.
    assert (D : de_variant_index (length vss) (w ++ c) = Ok (i, c)).
    { unfold de_variant_index. rewrite (@read_i32_app (Z.of_nat i)); [|apply unsigned_signed; [lia|easy|exact L]]. cbn [bind].
      destruct (Z.ltb_spec (Z.of_nat i) 0); [lia|]. assert (i < length vss)%nat by (apply nth_error_Some; congruence).
      destruct (Z.ltb_spec (Z.of_nat i) (Z.of_nat (length vss))); [now rewrite Nat2Z.id|lia]. }
    rewrite D. cbn [bind]. rewrite N. specialize (IH n ltac:(lia)). destruct s as [|t|ts|fs]; cbn [shape_types] in IH.
    + discriminate.
    + cbn [map read_seq] in IH. apply bind_err in IH as [->|([y j] & _ & IH)]; easy.
    + rewrite (@fields_seq_err _ _ _ _ _ e); [easy|unfold zlen; rewrite map_length; lia|easy].
    + rewrite <- (map_map snd (deser n E)). rewrite (@fields_seq_err _ _ _ _ _ e); [easy|unfold zlen; rewrite !map_length; lia|easy].
  - intros a tf d z w r U D. fuel 0%nat. rewrite (read_i32_app _ U). cbn [bind]. now rewrite D.
  - intros vss a names d z w r U D. fuel 0%nat. unfold next_element. cbn [Z.eqb]. rewrite (read_i32_app _ U). cbn [bind]. now rewrite D.
  - intros vss a names d z w name i ts c e U D F _ [N IH]. fuel N. unfold next_element. cbn [Z.eqb]. rewrite (read_i32_app _ U). cbn [bind].
    apply find_first in F. rewrite D, F. change (10 - 1) with (Z.of_nat 9). rewrite (@firstn_err _ _ 9 c e); [easy|]. rewrite firstn_map. apply IH. lia.
  - intros vss disc names d c e _ [N IH]. fuel N. unfold next_element. cbn [Z.eqb]. now rewrite IH by lia.
  - intros vss disc names d v w r A D. apply (proj1 (dec_main E)) in A as [N A]. fuel N. unfold next_element. cbn [Z.eqb].
    rewrite A by lia. cbn [bind]. now rewrite D.
  - intros vss disc names d v w name i ts c e A D F _ [K IH]. apply (proj1 (dec_main E)) in A as [N A]. fuel (N + K)%nat.
    unfold next_element. cbn [Z.eqb]. rewrite A by lia. cbn [bind]. apply find_first in F. rewrite D, F. change (10 - 1) with (Z.of_nat 9).
    rewrite (@firstn_err _ _ 9 c e); [easy|]. rewrite firstn_map. apply IH. lia.
  - intros t ts c e _ [N IH]. exists N. intros n Hn. cbn [map read_seq]. now rewrite IH.
  - intros t ts v b c e A _ [N IH]. apply (proj1 (dec_main E)) in A as [M A]. exists (N + M)%nat. intros n Hn. cbn [map read_seq].
    rewrite A by lia. cbn [bind]. now rewrite IH by lia.
Qed.

Lemma error_bounded n E t i e : from_bytes n E t i = Err e -> reports E t i e.
Proof.
  intros H. unfold from_bytes in H. apply bind_err in H as [H|([v r] & D & H)]; [apply rp_inside; now apply fail_only in H|].
  destruct r as [|b r]; [discriminate|]. injection H as <-. apply deser_accepts in D as (c & -> & A). now apply rp_trailing with v.
Qed.
Lemma error_exact E t i e : returns (fun n => from_bytes n E t i) (Err e) <-> reports E t i e.
Proof.
  split.
  - intros [_ [N H]]. specialize (H N (Nat.le_refl N)). now apply error_bounded in H.
  - intros P. split; [discriminate|]. destruct P as [i e P|v c r A R].
    + apply (proj1 (fail_all E)) in P as [N P]. exists N. intros n Hn. unfold from_bytes. now rewrite P.
    + apply (proj1 (dec_main E)) in A as [N A]. exists N. intros n Hn. unfold from_bytes. rewrite A by easy. cbn [bind]. now destruct r.
Qed.
