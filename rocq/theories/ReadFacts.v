(** Closed forms of the deserializer's loops. *)
From Verif Require Import Base SerModel RustTypes DeModel.
Set Implicit Arguments.

Lemma read_app k a r : zlen a = k -> read k (a ++ r) = Ok (a, r).
Proof.
  intros <-. unfold read. rewrite zlen_app.
  pose proof (zlen_nonneg r). pose proof (zlen_nonneg a).
  destruct (Z.ltb_spec (zlen a + zlen r) (zlen a)); [lia|].
  unfold zlen. rewrite Nat2Z.id.
  rewrite firstn_app, skipn_app, Nat.sub_diag, firstn_all, skipn_all.
  cbn. now rewrite app_nil_r.
Qed.

Lemma read_inv k i a r : 0 <= k -> read k i = Ok (a, r) -> i = a ++ r /\ zlen a = k.
Proof.
  unfold read. intros Hk H. destruct (Z.ltb_spec (zlen i) k) as [L|L]; [discriminate|].
  injection H as <- <-. split; [now rewrite firstn_skipn|].
  unfold zlen in *. rewrite firstn_length. lia.
Qed.

Lemma read_cases k i : 0 <= k ->
  (exists a r, i = a ++ r /\ zlen a = k /\ read k i = Ok (a, r)) \/
  (zlen i < k /\ read k i = Err (ENotEnoughData (k - zlen i))).
Proof.
  intros Hk. destruct (Z_lt_le_dec (zlen i) k) as [L|L].
  - right. split; [exact L|]. unfold read. destruct (Z.ltb_spec (zlen i) k); [reflexivity|lia].
  - left. destruct (read k i) as [[a r]| | | |] eqn:E.
    + destruct (read_inv _ Hk E). exists a, r. auto.
    + unfold read in E. destruct (Z.ltb_spec (zlen i) k); [lia|discriminate].
    + unfold read in E. destruct (Z.ltb_spec (zlen i) k); discriminate.
    + unfold read in E. destruct (Z.ltb_spec (zlen i) k); discriminate.
    + unfold read in E. destruct (Z.ltb_spec (zlen i) k); discriminate.
Qed.

(** ** Sequential reading *)

Fixpoint read_seq {A} (ps : list (parser A)) (i : st) : res (list A * st) :=
  match ps with
  | [] => Ok ([], i)
  | p :: ps => '(a, i) <- p i;; '(l, i) <- read_seq ps i;; Ok (a :: l, i)
  end.

Lemma visit_vec_seq {A} (p : parser A) k i :
  visit_vec p (Z.of_nat k, i) = read_seq (repeat p k) i.
Proof.
  unfold visit_vec. rewrite loopZ_nat. cbn [fst].
  replace (Z.to_nat (Z.of_nat k + 1)) with (S k) by lia.
  set (stp := fun '(acc, s) => _).
  assert (G : forall k i acc,
    loop_nat stp (S k) (acc, (Z.of_nat k, i)) =
    inr (match read_seq (repeat p k) i with
         | Ok (l, r) => Ok (rev acc ++ l, r)
         | Err e => Err e | Panic => Panic | Fuel => Fuel | Stuck => Stuck
         end)).
  { clear k i. induction k as [|k IH]; intros i acc.
    - cbn. now rewrite app_nil_r.
    - change (repeat p (S k)) with (p :: repeat p k). cbn [read_seq].
      change (loop_nat stp (S (S k)) (acc, (Z.of_nat (S k), i)))
        with (match stp (acc, (Z.of_nat (S k), i)) with
              | inl s' => loop_nat stp (S k) s' | inr r => inr r end).
      unfold stp at 1. unfold next_element.
      destruct (Z.eqb_spec (Z.of_nat (S k)) 0) as [E|_]; [lia|].
      destruct (p i) as [[a i']| | | |]; cbn [bind]; try reflexivity.
      replace (Z.of_nat (S k) - 1) with (Z.of_nat k) by lia.
      rewrite IH. destruct (read_seq (repeat p k) i') as [[l r]| | | |]; cbn [bind]; try reflexivity.
      cbn [rev]. now rewrite <- app_assoc. }
  rewrite G. destruct (read_seq (repeat p k) i) as [[l r]| | | |]; reflexivity.
Qed.

Lemma visit_fields_seq {A} (ps : list (parser A)) pos count i : zlen ps <= count ->
  visit_fields ps pos (count, i)
  = ('(l, r) <- read_seq ps i;; Ok (l, (count - zlen ps, r))).
Proof.
  revert pos count i. induction ps as [|p ps IH]; intros pos count i H.
  - cbn. unfold zlen. cbn. now rewrite Z.sub_0_r.
  - rewrite zlen_cons in H. pose proof (zlen_nonneg ps). cbn [visit_fields read_seq].
    unfold next_element. destruct (Z.eqb_spec count 0); [lia|].
    destruct (p i) as [[a i']| | | |]; cbn [bind]; try reflexivity.
    rewrite IH by lia. destruct (read_seq ps i') as [[l r]| | | |]; cbn [bind]; try reflexivity.
    rewrite zlen_cons. replace (count - 1 - zlen ps) with (count - (1 + zlen ps)) by lia.
    reflexivity.
Qed.

Lemma visit_fields_unwrap_seq {A} (ps : list (parser A)) count i : zlen ps <= count ->
  visit_fields_unwrap ps (count, i)
  = ('(l, r) <- read_seq ps i;; Ok (l, (count - zlen ps, r))).
Proof.
  revert count i. induction ps as [|p ps IH]; intros count i H.
  - cbn. unfold zlen. cbn. now rewrite Z.sub_0_r.
  - rewrite zlen_cons in H. pose proof (zlen_nonneg ps). cbn [visit_fields_unwrap read_seq].
    unfold next_element. destruct (Z.eqb_spec count 0); [lia|].
    destruct (p i) as [[a i']| | | |]; cbn [bind]; try reflexivity.
    rewrite IH by lia. destruct (read_seq ps i') as [[l r]| | | |]; cbn [bind]; try reflexivity.
    rewrite zlen_cons. replace (count - 1 - zlen ps) with (count - (1 + zlen ps)) by lia.
    reflexivity.
Qed.

Lemma visit_fields_unwrap_len {A} (ps : list (parser A)) count i l s : 0 <= count ->
  visit_fields_unwrap ps (count, i) = Ok (l, s) -> zlen ps <= count.
Proof.
  revert count i l s. induction ps as [|p ps IH]; intros count i l s Hc H.
  - unfold zlen; cbn. lia.
  - cbn [visit_fields_unwrap] in H. unfold next_element in H.
    destruct (Z.eqb_spec count 0); [discriminate|].
    destruct (p i) as [[a i']| | | |]; cbn [bind] in H; try discriminate.
    apply bind_ok in H as ([l' s'] & H & _). apply IH in H; [|lia].
    rewrite zlen_cons. lia.
Qed.

Lemma visit_map_seq kp vp k i :
  visit_map kp vp (Z.of_nat k, i) =
  ('(l, r) <- read_seq (repeat (fun i => '(k, i) <- kp i;; '(v, i) <- vp i;; Ok ((k, v), i)) k) i;;
   Ok (fold_left (fun m kv => map_insert (fst kv) (snd kv) m) l [], r)).
Proof. unfold visit_map. rewrite visit_vec_seq. reflexivity. Qed.

(** ** Opaque data *)

Lemma copy_word_eq size word w : zlen w <= size ->
  copy_word size word w = rev (firstn (Z.to_nat (size - zlen w)) word) ++ w.
Proof.
  unfold copy_word. revert w. induction word as [|b word IH]; intros w H.
  - now rewrite firstn_nil.
  - cbn [fold_left]. destruct (Z.ltb_spec (zlen w) size) as [L|L].
    + rewrite IH by (rewrite zlen_cons; lia). rewrite zlen_cons.
      replace (Z.to_nat (size - zlen w)) with (S (Z.to_nat (size - (1 + zlen w)))) by lia.
      cbn [firstn rev]. now rewrite <- app_assoc.
    + rewrite IH by lia. replace (Z.to_nat (size - zlen w)) with O by lia.
      now rewrite !firstn_O.
Qed.

Lemma enumerate_u8_ok bs p r size :
  zlen bs = size -> (size + zlen p) mod 4 = 0 -> zlen p < 4 ->
  enumerate_u8 (size, bs ++ p ++ r) = Ok (bs, r).
Proof.
  intros Hs Hm Hp. unfold enumerate_u8. cbn [fst]. rewrite loopZ_nat.
  set (stp := fun '(w, s) => _).
  assert (G : forall k d r w c, length d = (4 * k)%nat -> Z.of_nat k <= c -> zlen w <= size ->
    loop_nat stp k (w, (c, d ++ r)) =
    inl (rev (firstn (Z.to_nat (size - zlen w)) d) ++ w, (c - Z.of_nat k, r))).
  { clear bs p r Hs Hm Hp. induction k as [|k IH]; intros d r w c Hd Hc Hw.
    - destruct d; [|discriminate]. cbn. rewrite firstn_nil, Z.sub_0_r. reflexivity.
    - destruct d as [|b0 [|b1 [|b2 [|b3 d]]]]; cbn in Hd; try lia.
      cbn [loop_nat]. unfold stp at 1. unfold next_element.
      destruct (Z.eqb_spec c 0); [lia|].
      unfold read_u32.
      change ((b0 :: b1 :: b2 :: b3 :: d) ++ r) with ([b0; b1; b2; b3] ++ (d ++ r)).
      rewrite read_app by reflexivity. cbn [bind].
      change 4%nat with (length [b0; b1; b2; b3]). rewrite be_bytes_be_val.
      rewrite IH; [| lia | lia | rewrite copy_word_eq, zlen_app by lia; unfold zlen;
        rewrite rev_length, firstn_length; unfold zlen in Hw; lia].
      rewrite copy_word_eq by lia. f_equal. f_equal; [|f_equal; lia].
      change (b0 :: b1 :: b2 :: b3 :: d) with ([b0; b1; b2; b3] ++ d).
      rewrite firstn_app, rev_app_distr, app_assoc. f_equal. f_equal. f_equal.
      f_equal. rewrite zlen_app. unfold zlen. rewrite rev_length, firstn_length.
      cbn [length]. lia. }
  rewrite app_assoc.
  pose proof (zlen_nonneg bs). pose proof (zlen_nonneg p).
  rewrite G.
  - change (zlen (@nil byte)) with 0. rewrite Z.sub_0_r, app_nil_r.
    rewrite rev_involutive.
    assert (Z.to_nat size = length bs) as -> by (unfold zlen in Hs; lia).
    rewrite firstn_app, Nat.sub_diag, firstn_all. cbn [firstn]. rewrite app_nil_r.
    unfold zlen. rewrite rev_length. fold (zlen bs). rewrite Hs, Z.sub_diag.
    cbn. now rewrite app_nil_r.
  - rewrite app_length. unfold zlen in *. lia.
  - lia.
  - unfold zlen; cbn. lia.
Qed.

Lemma enumerate_u8_short size i : 0 <= size -> zlen i < 4 * ((size + 3) / 4) ->
  enumerate_u8 (size, i) = Err (ENotEnoughData (4 - zlen i mod 4)).
Proof.
  intros Hs Hi. unfold enumerate_u8. cbn [fst]. rewrite loopZ_nat.
  set (stp := fun '(w, s) => _).
  assert (G : forall k i w c, zlen i < 4 * Z.of_nat k -> Z.of_nat k <= c ->
    loop_nat stp k (w, (c, i)) = inr (Err (ENotEnoughData (4 - zlen i mod 4)))).
  { clear i Hi. induction k as [|k IH]; intros i w c Hi Hc.
    - pose proof (zlen_nonneg i). lia.
    - cbn [loop_nat]. unfold stp at 1, next_element. destruct (Z.eqb_spec c 0); [lia|].
      unfold read_u32. destruct (read_cases i (k:=4) ltac:(lia)) as [(a & r & -> & La & ->)|[L ->]].
      + cbn [bind]. rewrite zlen_app in Hi. rewrite IH by lia.
        do 4 f_equal. rewrite zlen_app. lia.
      + cbn [bind]. do 4 f_equal. pose proof (zlen_nonneg i). lia. }
  rewrite G; [reflexivity|lia|lia].
Qed.

Lemma split_at {A} (i : list A) k : 0 <= k <= zlen i -> exists a r, i = a ++ r /\ zlen a = k.
Proof.
  intros H. exists (firstn (Z.to_nat k) i), (skipn (Z.to_nat k) i).
  split; [now rewrite firstn_skipn|]. unfold zlen in *. rewrite firstn_length. lia.
Qed.

Lemma enumerate_u8_cases size i : 0 <= size ->
  (exists bs p r, i = bs ++ p ++ r /\ zlen bs = size /\ (size + zlen p) mod 4 = 0 /\ zlen p < 4
     /\ enumerate_u8 (size, i) = Ok (bs, r))
  \/ (zlen i < 4 * ((size + 3) / 4)
      /\ enumerate_u8 (size, i) = Err (ENotEnoughData (4 - zlen i mod 4))).
Proof.
  intros Hs. destruct (Z_lt_le_dec (zlen i) (4 * ((size + 3) / 4))) as [L|L].
  - right. split; [exact L|]. now apply enumerate_u8_short.
  - left. destruct (@split_at _ i size) as (bs & r0 & -> & Lb); [lia|].
    rewrite zlen_app in L.
    destruct (@split_at _ r0 (4 * ((size + 3) / 4) - size)) as (p & r & -> & Lp); [lia|].
    exists bs, p, r. repeat split; try lia. apply enumerate_u8_ok; lia.
Qed.

Lemma de_opaque_fixed_cases k i :
  (exists bs p r, i = bs ++ p ++ r /\ length bs = k /\ (zlen bs + zlen p) mod 4 = 0 /\ zlen p < 4
     /\ de_opaque_fixed k i = Ok (bs, r))
  \/ (zlen i < 4 * ((Z.of_nat k + 3) / 4)
      /\ de_opaque_fixed k i = Err (ENotEnoughData (4 - zlen i mod 4))).
Proof.
  unfold de_opaque_fixed.
  destruct (@enumerate_u8_cases (Z.of_nat k) i) as [(bs & p & r & -> & L & M & P & ->)|[L ->]]; [lia| |].
  - left. exists bs, p, r. unfold zlen in *. cbn [bind].
    assert (length bs = k) as L' by lia. rewrite L', Nat.eqb_refl. repeat split; auto; lia.
  - right. auto.
Qed.
