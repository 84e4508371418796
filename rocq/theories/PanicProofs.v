(** C09: exactly the inputs on which the decoder panics. *)
From Verif Require Import Base SpecUtf8 Utf8 Utf8Proofs RustTypes SpecXdr SpecTypes SpecDecode SpecMisc XdrFacts RvalFacts SerModel DeModel ReadFacts DecProofs
  CodecProofs TotalProofs NormProofs SpecAlike SpecPanic.
Set Implicit Arguments.
Unset Strict Implicit.
Local Open Scope list_scope.

Ltac inv H := inversion H; subst; clear H.

Lemma bind_panic {A B} (r : res A) (f : A -> res B) : bind r f = Panic -> r = Panic \/ exists a, r = Ok a /\ f a = Panic.
Proof. destruct r; cbn; intros H; try discriminate; eauto. Qed.

(** ** Padding *)
Lemma pad_panic size (k : st) : 0 <= size -> slice_from (4 - size mod 4) k = Panic -> 4 - size mod 4 < 4 ->
  exists q, any_pad size (k ++ q) /\ q <> [].
Proof.
  intros S H L. unfold slice_from in H. destruct (Z.ltb_spec (zlen k) (4 - size mod 4)) as [K|K]; [|discriminate].
  pose proof (zlen_nonneg k). exists (repeat x00 (Z.to_nat (4 - size mod 4 - zlen k))).
  assert (zlen (repeat x00 (Z.to_nat (4 - size mod 4 - zlen k))) = 4 - size mod 4 - zlen k) as R
    by (unfold zlen at 1; rewrite repeat_length, Z2Nat.id; lia).
  split; [|intros N; rewrite N in R; change (zlen (@nil byte)) with 0 in R; lia].
  unfold any_pad. rewrite zlen_app, R. lia.
Qed.
Lemma pad_short size p q : 0 <= size -> any_pad size (p ++ q) -> q <> [] ->
  4 - size mod 4 < 4 /\ slice_from (4 - size mod 4) p = Panic.
Proof.
  intros S [M L] Q. rewrite zlen_app in *. assert (0 < zlen q) by (destruct q; [easy|rewrite zlen_cons; pose proof (zlen_nonneg q); lia]).
  pose proof (zlen_nonneg p). split; [lia|]. unfold slice_from. destruct (Z.ltb_spec (zlen p) (4 - size mod 4)); [easy|lia].
Qed.

Lemma string_panics i : read_string i = Panic <-> panics [] TStr i.
Proof.
  split.
  - unfold read_string. intros H. apply bind_panic in H as [H|([z j] & Z1 & H)]; [now apply read_u32_nopanic in H|].
    apply read_u32_inv in Z1 as (w & -> & U). pose proof (unsigned_range U).
    apply bind_panic in H as [H|([v k] & R & H)]; [now apply read_nopanic in H|].
    apply read_inv in R as [-> L]; [|lia]. subst z. destruct (utf8_ok v) eqn:V; [|discriminate]. apply utf8_ok_spec in V.
    destruct (Z.ltb_spec (4 - zlen v mod 4) 4); [|discriminate].
    apply bind_panic in H as [H|(? & _ & H)]; [|discriminate].
    destruct (@pad_panic (zlen v) k) as (q & P & Q); try easy. now apply pn_str with q.
  - intros H. inv H; [|match goal with P : product _ TStr |- _ => inv P end].
    unfold read_string. rewrite (@read_u32_app (zlen bs) n) by easy. cbn [bind].
    rewrite (@read_app (zlen bs) bs) by easy. cbn [bind]. match goal with V : valid_utf8 bs |- _ => apply utf8_ok_spec in V; rewrite V end.
    destruct (@pad_short (zlen bs) p q) as [L S]; try easy; [apply zlen_nonneg|].
    destruct (Z.ltb_spec (4 - zlen bs mod 4) 4); [|lia]. now rewrite S.
Qed.
Lemma bytes_panics i : read_bytes i = Panic <-> panics [] TByteBuf i.
Proof.
  split.
  - unfold read_bytes. intros H. apply bind_panic in H as [H|([z j] & Z1 & H)]; [now apply read_u32_nopanic in H|].
    apply read_u32_inv in Z1 as (w & -> & U). pose proof (unsigned_range U).
    apply bind_panic in H as [H|([v k] & R & H)]; [now apply read_nopanic in H|].
    apply read_inv in R as [-> L]; [|lia]. subst z.
    destruct (Z.ltb_spec (4 - zlen v mod 4) 4); [|discriminate].
    apply bind_panic in H as [H|(? & _ & H)]; [|discriminate].
    destruct (@pad_panic (zlen v) k) as (q & P & Q); try easy. now apply pn_bytes with q.
  - intros H. inv H; [|match goal with P : product _ TByteBuf |- _ => inv P end].
    unfold read_bytes. rewrite (@read_u32_app (zlen bs) n) by easy. cbn [bind].
    rewrite (@read_app (zlen bs) bs) by easy. cbn [bind].
    destruct (@pad_short (zlen bs) p q) as [L S]; try easy; [apply zlen_nonneg|].
    destruct (Z.ltb_spec (4 - zlen bs mod 4) 4); [|lia]. now rewrite S.
Qed.

(** ** Only those panic *)
Section Only.
  Variables (n : nat) (E : env).
  Hypothesis IH : forall t i, deser n E t i = Panic -> panics E t i.

  Lemma seq_panics ts : forall i, read_seq (map (deser n E) ts) i = Panic -> panics_in E ts i.
  Proof using IH.
    induction ts as [|t ts IHs]; intros i H; cbn in H; [discriminate|].
    apply bind_panic in H as [H|([v j] & D & H)]; [apply pi_here; auto|].
    apply bind_panic in H as [H|([l r] & _ & H)]; [|discriminate].
    apply deser_accepts in D as (c & -> & A). now apply pi_later with v; auto.
  Qed.
  Lemma repeat_panics t k : forall i, read_seq (repeat (deser n E t) k) i = Panic ->
    exists vs b c, i = b ++ c /\ (length vs < k)%nat /\ accepts_all E (repeat t (length vs)) vs b /\ panics E t c.
  Proof using IH.
    induction k as [|k IHk]; intros i H; cbn in H; [discriminate|].
    apply bind_panic in H as [H|([v j] & D & H)].
    { exists [], [], i. split; [easy|]. split; [cbn; lia|]. split; [constructor|auto]. }
    apply bind_panic in H as [H|([l r] & _ & H)]; [|discriminate].
    apply deser_accepts in D as (d & -> & A). apply IHk in H as (vs & b & c & -> & L & As & P).
    exists (v :: vs), (d ++ b), c. split; [now rewrite app_assoc|]. split; [cbn; lia|]. split; [now constructor|easy].
  Qed.
  Lemma pairs_panic tk tv k : forall i,
    read_seq (repeat (fun i => '(k, i) <- deser n E tk i;; '(v, i) <- deser n E tv i;; Ok ((k, v), i)) k) i = Panic ->
    exists kvs b c, i = b ++ c /\ (length kvs < k)%nat /\
      accepts_all E (flat_map (fun _ => [tk; tv]) kvs) (flat_map (fun '(k, v) => [k; v]) kvs) b /\ panics_in E [tk; tv] c.
  Proof using IH.
    induction k as [|k IHk]; intros i H; cbn in H; [discriminate|].
    apply bind_panic in H as [H|([[x y] j] & D & H)].
    { exists [], [], i. split; [easy|]. split; [cbn; lia|]. split; [constructor|].
      apply bind_panic in H as [H|([x j] & D & H)]; [apply pi_here; auto|].
      apply bind_panic in H as [H|([y r] & _ & H)]; [|discriminate].
      apply deser_accepts in D as (d & -> & A). apply pi_later with x; [easy|]. apply pi_here; auto. }
    apply bind_panic in H as [H|([l r] & _ & H)]; [|discriminate].
    apply bind_ok in D as ([x' j1] & D1 & D). apply bind_ok in D as ([y' j2] & D2 & D). injection D as -> -> ->.
    apply deser_accepts in D1 as (d1 & -> & A1). apply deser_accepts in D2 as (d2 & -> & A2).
    apply IHk in H as (kvs & b & c & -> & L & As & P).
    exists ((x, y) :: kvs), (d1 ++ d2 ++ b), c. split; [now rewrite !app_assoc|]. split; [cbn; lia|]. split; [|easy].
    cbn. constructor; [easy|]. now constructor.
  Qed.
  Lemma unwrap_panics ts : forall k i, visit_fields_unwrap (map (deser n E) ts) (Z.of_nat k, i) = Panic ->
    panics_in E (firstn k ts) i \/
    (k < length ts)%nat /\ exists vs b r, i = b ++ r /\ accepts_all E (firstn k ts) vs b.
  Proof using IH.
    induction ts as [|t ts IHs]; intros k i H; cbn [map visit_fields_unwrap] in H; [discriminate|].
    unfold next_element in H. destruct (Z.eqb_spec (Z.of_nat k) 0) as [K|K].
    { right. replace k with 0%nat by lia. split; [cbn; lia|]. exists [], [], i. split; [easy|constructor]. }
    destruct k as [|k]; [lia|]. replace (Z.of_nat (Datatypes.S k) - 1) with (Z.of_nat k) in H by lia. cbn [firstn length].
    destruct (deser n E t i) as [[v j]| | | |] eqn:D; cbn [bind] in H; try discriminate; [|left; apply pi_here; auto].
    apply deser_accepts in D as (d & -> & A).
    apply bind_panic in H as [H|([l r] & _ & H)]; [|discriminate].
    apply IHs in H as [P|(L & vs & b & r & -> & As)]; [left; now apply pi_later with v|].
    right. split; [lia|]. exists (v :: vs), (d ++ b), r. split; [now rewrite app_assoc|now constructor].
  Qed.
  Lemma ten_panics ts i : visit_fields_unwrap (map (deser n E) ts) (9, i) = Panic -> panics_ten E ts i.
  Proof using IH.
    intros H. apply (@unwrap_panics ts 9) in H as [P|(L & vs & b & r & -> & As)]; [now apply pt_field|now apply pt_tenth with vs].
  Qed.
  Lemma fields_panic ts pos i : visit_fields (map (deser n E) ts) pos (zlen ts, i) = Panic -> panics_in E ts i.
  Proof using IH.
    intros H. rewrite visit_fields_seq in H by (unfold zlen; rewrite map_length; lia).
    apply bind_panic in H as [H|([l r] & _ & H)]; [|discriminate]. now apply seq_panics.
  Qed.
End Only.

Lemma find_none_in {B} name (l : list (string * B)) : find_variant name l 0 = None -> forall b, ~ In (name, b) l.
Proof. intros H b. now apply find_variant_none with (b := b) in H. Qed.
Lemma in_find_none {B} name (l : list (string * B)) : (forall b, ~ In (name, b) l) -> find_variant name l 0 = None.
Proof.
  intros H. destruct (find_variant name l 0) as [[k b]|] eqn:F; [|easy]. apply find_variant_spec in F as (i & _ & N & _).
  apply nth_error_In in N. now apply H in N.
Qed.
Lemma find_first {B} name (l : list (string * B)) k b : find_variant name l 0 = Some (k, b) <-> first_variant l name k b.
Proof.
  rewrite find_variant_spec. unfold first_variant. split; [intros (i & -> & N & F); auto|intros [N F]; exists k; auto].
Qed.

Lemma panic_only E : forall n t i, deser n E t i = Panic -> panics E t i.
Proof.
  induction n as [|n IH]; intros t i H; [discriminate|].
  pose proof (fields_panic IH) as FP.
  destruct t as [| | | | | | |t| | |t|t|t|k t|ts|ts|fs|tk tv|vss|k| |a tf d|vss a names d|vss disc names d|x]; cbn [deser] in H; try discriminate.
  - apply bind_panic in H as [H|([z j] & _ & H)]; [now apply read_u32_nopanic in H|discriminate].
  - apply bind_panic in H as [H|([z j] & _ & H)]; [now apply de_int_nopanic in H|discriminate].
  - apply bind_panic in H as [H|([z j] & _ & H)]; [now apply read_u32_nopanic in H|discriminate].
  - apply bind_panic in H as [H|([z j] & _ & H)]; [now apply read_u64_nopanic in H|discriminate].
  - apply bind_panic in H as [H|([z j] & _ & H)]; [|discriminate]. unfold read_char in H.
    apply bind_panic in H as [H|([z j] & _ & H)]; [now apply read_u32_nopanic in H|]. destruct (char_ok z); discriminate.
  - apply bind_panic in H as [H|([z j] & _ & H)]; [|discriminate]. apply string_panics in H.
    inv H; [|match goal with P : product _ TStr |- _ => inv P end]. now apply pn_str with q.
  - apply bind_panic in H as [H|([z j] & _ & H)]; [|discriminate]. apply bytes_panics in H.
    inv H; [|match goal with P : product _ TByteBuf |- _ => inv P end]. now apply pn_bytes with q.
  - apply bind_panic in H as [H|([z j] & R & H)]; [now apply read_u32_nopanic in H|].
    apply read_u32_inv in R as (w & -> & U). destruct (Z.eqb_spec z 0); [discriminate|].
    apply bind_panic in H as [H|([v r] & _ & H)]; [|discriminate]. apply pn_some with z; auto.
  - apply pn_newtype. auto.
  - apply pn_box. auto.
  - apply bind_panic in H as [H|([z j] & R & H)]; [now apply read_u32_nopanic in H|].
    apply read_u32_inv in R as (w & -> & U). pose proof (unsigned_range U).
    apply bind_panic in H as [H|([v r] & _ & H)]; [|discriminate].
    replace z with (Z.of_nat (Z.to_nat z)) in H by lia. rewrite visit_vec_seq in H.
    apply (repeat_panics IH) in H as (vs & b & c & -> & L & As & P). apply pn_seq with z vs; auto. unfold zlen. lia.
  - apply bind_panic in H as [H|([v r] & _ & H)]; [|discriminate]. apply pn_product with (repeat t k); [constructor|].
    rewrite <- map_repeat in H. apply FP with 0. unfold zlen. now rewrite repeat_length.
  - apply bind_panic in H as [H|([v r] & _ & H)]; [|discriminate]. apply pn_product with ts; [constructor|]. now apply FP with 0.
  - apply bind_panic in H as [H|([v r] & _ & H)]; [|discriminate]. apply pn_product with ts; [constructor|]. now apply FP with 0.
  - apply bind_panic in H as [H|([v r] & _ & H)]; [|discriminate]. apply pn_product with (map snd fs); [constructor|].
    rewrite <- (map_map snd (deser n E)) in H. apply FP with 0. unfold zlen in *. now rewrite map_length.
  - apply bind_panic in H as [H|([z j] & R & H)]; [now apply read_u32_nopanic in H|].
    apply read_u32_inv in R as (w & -> & U). pose proof (unsigned_range U).
    apply bind_panic in H as [H|([v r] & _ & H)]; [|discriminate].
    replace z with (Z.of_nat (Z.to_nat z)) in H by lia. rewrite visit_map_seq in H.
    apply bind_panic in H as [H|([v r] & _ & H)]; [|discriminate].
    apply (pairs_panic IH) in H as (kvs & b & c & -> & L & As & P). apply pn_map with z kvs; auto. unfold zlen. lia.
  - apply bind_panic in H as [H|([k j] & R & H)]; [now apply de_variant_index_nopanic in H|].
    apply de_variant_index_inv in R as (w & -> & U & L & _).
    destruct (nth_error vss k) as [[x s]|] eqn:N; [|discriminate].
    destruct s as [|t|ts|fs]; [discriminate| | |]; (apply bind_panic in H as [H|([v r] & _ & H)]; [|discriminate]);
      (eapply pn_variant; [eassumption|assumption|eassumption|]); cbn [shape_types].
    + apply pi_here. auto.
    + now apply FP with 0.
    + rewrite <- (map_map snd (deser n E)) in H. apply FP with 0. unfold zlen in *. now rewrite map_length.
  - destruct (de_opaque_fixed_cases k i) as [(bs & p & r & _ & _ & _ & _ & Q)|[_ Q]]; rewrite Q in H; discriminate.
  - apply bind_panic in H as [H|([z j] & R & H)]; [|discriminate]. unfold de_opaque_variable in H.
    apply bind_panic in H as [H|([z j] & R & H)]; [now apply read_u32_nopanic in H|].
    apply read_u32_inv in R as (w & -> & U). pose proof (unsigned_range U).
    destruct (@enumerate_u8_cases z j) as [(bs & p & r & _ & _ & _ & _ & Q)|[_ Q]]; [lia| |]; rewrite Q in H; discriminate.
  - apply bind_panic in H as [H|([z j] & R & H)]; [now apply read_i32_nopanic in H|].
    apply read_i32_inv in R as (w & -> & U). destruct (with_dflt (assoc Z.eqb z tf) d) eqn:D; try discriminate.
    now apply pn_signed32 with z.
  - unfold next_element in H. cbn [Z.eqb] in H. destruct (read_i32 i) as [[z j]| | | |] eqn:R; cbn [bind] in H; try discriminate;
      [|now apply read_i32_nopanic in R]. apply read_i32_inv in R as (w & -> & U).
    destruct (with_dflt (assoc Z.eqb z names) d) as [name| |] eqn:D; try discriminate; [|now apply pn_indexer_table with z].
    destruct (find_variant name vss 0) as [[k ts]|] eqn:F; [|apply pn_indexer_name with z name; auto using find_none_in].
    apply bind_panic in H as [H|([l s] & _ & H)]; [|discriminate]. apply find_first in F.
    eapply pn_indexer; eauto. now apply (ten_panics IH).
  - unfold next_element in H. cbn [Z.eqb] in H. destruct (deser n E disc i) as [[v j]| | | |] eqn:R; cbn [bind] in H; try discriminate;
      [|apply pn_disc; auto]. apply deser_accepts in R as (w & -> & A).
    destruct (with_dflt (assoc rval_eqb v names) d) as [name| |] eqn:D; try discriminate; [|now apply pn_union_table with v].
    destruct (find_variant name vss 0) as [[k [ts|]]|] eqn:F; [|discriminate|apply pn_union_name with v name; auto using find_none_in].
    apply bind_panic in H as [H|([l s] & _ & H)]; [|discriminate]. apply find_first in F.
    eapply pn_union; eauto. now apply (ten_panics IH).
  - destruct (lookup E x) as [t|] eqn:L; [|discriminate]. apply pn_ref with t; auto.
Qed.

(** ** All of those panic *)
Lemma chain_panic {A} (ps : list (parser A)) l b p qs c : chain ps l b -> p c = Panic -> read_seq (ps ++ p :: qs) (b ++ c) = Panic.
Proof.
  intros H P. induction H as [|q ps a l b bs Hq _ IH]; cbn [app read_seq]; [now rewrite P|].
  rewrite <- app_assoc, Hq. cbn [bind]. now rewrite IH.
Qed.
Lemma repeat_split {A} (x : A) k m : (k < m)%nat -> repeat x m = repeat x k ++ x :: repeat x (m - k - 1).
Proof.
  intros L. replace m with (k + (1 + (m - k - 1)))%nat at 1 by lia. now rewrite repeat_app.
Qed.
Lemma firstn_panic {A} (ps : list (parser A)) : forall k i, read_seq (firstn k ps) i = Panic ->
  visit_fields_unwrap ps (Z.of_nat k, i) = Panic.
Proof.
  induction ps as [|p ps IH]; intros [|k] i H; cbn [firstn read_seq] in H; try discriminate.
  cbn [visit_fields_unwrap]. unfold next_element. destruct (Z.eqb_spec (Z.of_nat (Datatypes.S k)) 0); [lia|].
  apply bind_panic in H as [H|([a j] & P & H)]; [now rewrite H|]. rewrite P. cbn [bind].
  replace (Z.of_nat (Datatypes.S k) - 1) with (Z.of_nat k) by lia.
  apply bind_panic in H as [H|([l r] & _ & H)]; [|discriminate]. now rewrite (IH k j H).
Qed.
Lemma tenth_panic {A} (ps : list (parser A)) : forall k l b r, chain (firstn k ps) l b -> (k < length ps)%nat ->
  visit_fields_unwrap ps (Z.of_nat k, b ++ r) = Panic.
Proof.
  induction ps as [|p ps IH]; intros k l b r H L; cbn [length] in L; [lia|].
  cbn [visit_fields_unwrap]. unfold next_element. destruct (Z.eqb_spec (Z.of_nat k) 0) as [K|K]; [easy|].
  destruct k as [|k]; [lia|]. cbn [firstn] in H. inversion H as [|q qs a l' b1 b2 Hp H1]; subst.
  rewrite <- app_assoc, Hp. cbn [bind]. replace (Z.of_nat (Datatypes.S k) - 1) with (Z.of_nat k) by lia.
  rewrite (IH k l' b2 r H1); [easy|lia].
Qed.
Lemma fields_seq_panic {A} (ps : list (parser A)) pos c i : zlen ps <= c -> read_seq ps i = Panic -> visit_fields ps pos (c, i) = Panic.
Proof. intros L H. rewrite visit_fields_seq by easy. now rewrite H. Qed.

Definition panics_from (E : env) t i := exists N, forall n, (N <= n)%nat -> deser n E t i = Panic.

Ltac fuel N := exists (Datatypes.S N); intros [|n] Hn; [lia|]; cbn [deser].

Lemma panic_all E :
  (forall t i, panics E t i -> panics_from E t i) /\
  (forall ts i, panics_in E ts i -> exists N, forall n, (N <= n)%nat -> read_seq (map (deser n E) ts) i = Panic) /\
  (forall ts i, panics_ten E ts i -> exists N, forall n, (N <= n)%nat -> visit_fields_unwrap (map (deser n E) ts) (9, i) = Panic).
Proof.
  apply panics_ind3; unfold panics_from.
  - intros m bs p q U V P Q. fuel 0%nat. assert (R : panics [] TStr (m ++ bs ++ p)) by now apply pn_str with q.
    apply string_panics in R. now rewrite R.
  - intros m bs p q U P Q. fuel 0%nat. assert (R : panics [] TByteBuf (m ++ bs ++ p)) by now apply pn_bytes with q.
    apply bytes_panics in R. now rewrite R.
  - intros t w z c U Z0 _ [N IH]. fuel N. rewrite (read_u32_app _ U). cbn [bind]. destruct (Z.eqb_spec z 0); [easy|]. rewrite IH by lia. easy.
  - intros t c _ [N IH]. fuel N. apply IH. lia.
  - intros t c _ [N IH]. fuel N. apply IH. lia.
  - intros x t c L _ [N IH]. fuel N. rewrite L. apply IH. lia.
  - intros ts t c P _ [N IH]. fuel N. specialize (IH n ltac:(lia)). destruct P.
    + rewrite fields_seq_panic; [easy|unfold zlen; rewrite map_length; lia|easy].
    + rewrite fields_seq_panic; [easy|unfold zlen; rewrite map_length; lia|easy].
    + rewrite <- (map_map snd (deser n E)). rewrite fields_seq_panic; [easy|unfold zlen; rewrite !map_length; lia|easy].
    + rewrite <- map_repeat. rewrite fields_seq_panic; [easy|unfold zlen; rewrite map_length, repeat_length; lia|easy].
  - intros t w z vs b c U L A _ [N IH]. apply (proj2 (dec_main E)) in A as [M A].
    fuel (N + M)%nat. rewrite (read_u32_app _ U). cbn [bind]. replace z with (Z.of_nat (Z.to_nat z)) by (unfold zlen in L; lia).
    rewrite visit_vec_seq. specialize (A n ltac:(lia)). rewrite map_repeat in A.
    rewrite (@repeat_split _ (deser n E t) (length vs)) by (unfold zlen in L; lia).
    rewrite (chain_panic _ A); [easy|]. apply IH. lia.
  - intros tk tv w z kvs b c U L A _ [N IH]. apply (proj2 (dec_main E)) in A as [M A].
    fuel (N + M)%nat. rewrite (read_u32_app _ U). cbn [bind]. replace z with (Z.of_nat (Z.to_nat z)) by (unfold zlen in L; lia).
    rewrite visit_map_seq. specialize (A n ltac:(lia)). rewrite map_flat_map in A. cbn [map] in A. apply chain_pairs in A.
    rewrite (@repeat_split _ (fun i => '(k, i) <- deser n E tk i;; '(v, i) <- deser n E tv i;; Ok ((k, v), i)) (length kvs)) by (unfold zlen in L; lia).
    rewrite (chain_panic _ A); [easy|]. specialize (IH n ltac:(lia)). cbn [map read_seq] in IH.
    apply bind_panic in IH as [IH|([x j] & D & IH)]; [now rewrite IH|]. rewrite D. cbn [bind].
    apply bind_panic in IH as [IH|([l r] & _ & IH)]; [|discriminate]. now apply bind_panic in IH as [->|([y r] & _ & IH)].
  - intros vss i x s w c U L N _ [K IH]. fuel K.
    assert (D : de_variant_index (length vss) (w ++ c) = Ok (i, c)).
    { unfold de_variant_index. rewrite (@read_i32_app (Z.of_nat i)); [|apply unsigned_signed; [lia|easy|exact L]]. cbn [bind].
      destruct (Z.ltb_spec (Z.of_nat i) 0); [lia|]. assert (i < length vss)%nat by (apply nth_error_Some; congruence).
      destruct (Z.ltb_spec (Z.of_nat i) (Z.of_nat (length vss))); [now rewrite Nat2Z.id|lia]. }
    rewrite D. cbn [bind]. rewrite N. specialize (IH n ltac:(lia)). destruct s as [|t|ts|fs]; cbn [shape_types] in IH.
    + discriminate.
    + cbn [map read_seq] in IH. apply bind_panic in IH as [->|([y j] & _ & IH)]; easy.
    + rewrite fields_seq_panic; [easy|unfold zlen; rewrite map_length; lia|easy].
    + rewrite <- (map_map snd (deser n E)). rewrite fields_seq_panic; [easy|unfold zlen; rewrite !map_length; lia|easy].
  - intros a tf d z w r U D. fuel 0%nat. rewrite (read_i32_app _ U). cbn [bind]. now rewrite D.
  - intros vss a names d z w r U D. fuel 0%nat. unfold next_element. cbn [Z.eqb]. rewrite (read_i32_app _ U). cbn [bind]. now rewrite D.
  - intros vss a names d z w r name U D M. fuel 0%nat. unfold next_element. cbn [Z.eqb]. rewrite (read_i32_app _ U). cbn [bind].
    now rewrite D, (in_find_none M).
  - intros vss a names d z w name i ts c U D F _ [N IH]. fuel N. unfold next_element. cbn [Z.eqb]. rewrite (read_i32_app _ U). cbn [bind].
    apply find_first in F. rewrite D, F. change (10 - 1) with 9. now rewrite IH by lia.
  - intros vss disc names d c _ [N IH]. fuel N. unfold next_element. cbn [Z.eqb]. now rewrite IH by lia.
  - intros vss disc names d v w r A D. apply (proj1 (dec_main E)) in A as [N A]. fuel N. unfold next_element. cbn [Z.eqb].
    rewrite A by lia. cbn [bind]. now rewrite D.
  - intros vss disc names d v w r name A D M. apply (proj1 (dec_main E)) in A as [N A]. fuel N. unfold next_element. cbn [Z.eqb].
    rewrite A by lia. cbn [bind]. now rewrite D, (in_find_none M).
  - intros vss disc names d v w name i ts c A D F _ [K IH]. apply (proj1 (dec_main E)) in A as [N A]. fuel (N + K)%nat.
    unfold next_element. cbn [Z.eqb]. rewrite A by lia. cbn [bind]. apply find_first in F. rewrite D, F. change (10 - 1) with 9.
    now rewrite IH by lia.
  - intros t ts c _ [N IH]. exists N. intros n Hn. cbn [map read_seq]. now rewrite IH.
  - intros t ts v b c A _ [N IH]. apply (proj1 (dec_main E)) in A as [M A]. exists (N + M)%nat. intros n Hn. cbn [map read_seq].
    rewrite A by lia. cbn [bind]. now rewrite IH by lia.
  - intros ts c _ [N IH]. exists N. intros n Hn. apply (@firstn_panic _ (map (deser n E) ts) 9). rewrite firstn_map. auto.
  - intros ts vs b r L A. apply (proj2 (dec_main E)) in A as [N A]. exists N. intros n Hn.
    apply (@tenth_panic _ (map (deser n E) ts) 9 vs); [rewrite firstn_map; auto|now rewrite map_length].
Qed.

Lemma panic_exact E t i : returns (fun n => from_bytes n E t i) Panic <-> panics E t i.
Proof.
  split.
  - intros [_ [N H]]. specialize (H N (Nat.le_refl N)). unfold from_bytes in H.
    apply bind_panic in H as [H|([v r] & _ & H)]; [now apply panic_only in H|]. now destruct r.
  - intros P. apply (proj1 (panic_all E)) in P as [N P]. split; [discriminate|]. exists N. intros n Hn. unfold from_bytes. now rewrite P.
Qed.
Lemma panic_bounded n E t i : from_bytes n E t i = Panic -> panics E t i.
Proof.
  intros H. unfold from_bytes in H. apply bind_panic in H as [H|([v r] & _ & H)]; [now apply panic_only in H|]. now destruct r.
Qed.
