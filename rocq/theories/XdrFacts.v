(** Facts about the XDR specification and its relation to Base.v's functions. *)
From Verif Require Import Base SpecUtf8 SpecXdr RustTypes SpecTypes SpecDecode.
Set Implicit Arguments.

Lemma nval_be_val bs : nval bs = be_val bs.
Proof.
  induction bs as [|b bs IH]; [reflexivity|].
  rewrite be_val_cons. cbn [nval]. rewrite IH. reflexivity.
Qed.

Lemma nval_range bs : 0 <= nval bs < 256 ^ zlen bs.
Proof. rewrite nval_be_val. apply be_val_range. Qed.

Lemma pow256 n : 256 ^ Z.of_nat n = 2 ^ (8 * Z.of_nat n).
Proof. rewrite Z.pow_mul_r by lia. reflexivity. Qed.

Lemma nval_be_bytes n z : nval (be_bytes n z) = z mod 256 ^ Z.of_nat n.
Proof. rewrite nval_be_val. apply be_val_be_bytes. Qed.

Lemma unsigned_range k z bs : unsigned k z bs -> 0 <= z < 2 ^ (8 * Z.of_nat k).
Proof.
  intros [L V]. subst. rewrite <- pow256. apply nval_range.
Qed.

Lemma unsigned_be k z : 0 <= z < 2 ^ (8 * Z.of_nat k) -> unsigned k z (be_bytes k z).
Proof.
  intros H. split; [apply be_bytes_length|].
  rewrite nval_be_bytes, pow256. now apply Z.mod_small.
Qed.

Lemma unsigned_det k z a b : unsigned k z a -> unsigned k z b -> a = b.
Proof.
  intros [La Va] [Lb Vb]. rewrite nval_be_val in *.
  rewrite <- (be_bytes_be_val a), <- (be_bytes_be_val b). congruence.
Qed.

Lemma unsigned_val k a : length a = k -> unsigned k (nval a) a.
Proof. now split. Qed.

Lemma unsigned_is_be k z a : unsigned k z a -> a = be_bytes k z.
Proof.
  intros H. eapply unsigned_det; [exact H|]. apply unsigned_be.
  eapply unsigned_range; eauto.
Qed.

Lemma pow_half k : (0 < k)%nat -> 2 ^ (8 * Z.of_nat k) = 2 * 2 ^ (8 * Z.of_nat k - 1).
Proof. intros H. rewrite <- Z.pow_succ_r by lia. f_equal; lia. Qed.

Lemma signed_be k z : (0 < k)%nat ->
  - 2 ^ (8 * Z.of_nat k - 1) <= z < 2 ^ (8 * Z.of_nat k - 1) -> signed k z (be_bytes k z).
Proof.
  intros Hk H. split; [apply be_bytes_length|].
  rewrite nval_be_bytes, pow256.
  pose proof (pow_half Hk) as P.
  set (h := 2 ^ (8 * Z.of_nat k - 1)) in *. rewrite P.
  destruct (Z_lt_le_dec z 0).
  - right. split; [lia|]. symmetry. apply Z.mod_unique with (q := -1); lia.
  - left. split; [lia|]. apply Z.mod_small. lia.
Qed.

Lemma signed_range k z a : (0 < k)%nat -> signed k z a ->
  - 2 ^ (8 * Z.of_nat k - 1) <= z < 2 ^ (8 * Z.of_nat k - 1).
Proof.
  intros Hk [L H].
  assert (0 < 2 ^ (8 * Z.of_nat k - 1)) by (apply Z.pow_pos_nonneg; lia). lia.
Qed.

Lemma signed_val k z a : (0 < k)%nat -> signed k z a -> z = wrap_s (8 * Z.of_nat k) (nval a).
Proof.
  intros Hk [L H]. unfold wrap_s.
  pose proof (pow_half Hk) as P.
  set (h := 2 ^ (8 * Z.of_nat k - 1)) in *. rewrite P in *.
  destruct H as [[B V]|[B V]]; rewrite V.
  - rewrite Z.mod_small by lia. destruct (Z.ltb_spec z h); lia.
  - rewrite Z.mod_small by lia. destruct (Z.ltb_spec (z + 2 * h) h); lia.
Qed.

Lemma signed_wrap k a : (0 < k)%nat -> length a = k ->
  signed k (wrap_s (8 * Z.of_nat k) (nval a)) a.
Proof.
  intros Hk L. split; [exact L|]. unfold wrap_s.
  pose proof (nval_range a) as R. unfold zlen in R. rewrite L, pow256 in R.
  pose proof (pow_half Hk) as P.
  set (h := 2 ^ (8 * Z.of_nat k - 1)) in *. rewrite P in *.
  rewrite Z.mod_small by lia. destruct (Z.ltb_spec (nval a) h); lia.
Qed.

Lemma signed_det k z a b : signed k z a -> signed k z b -> a = b.
Proof.
  intros [La Ha] [Lb Hb].
  assert (nval a = nval b) by lia.
  eapply unsigned_det with (k := k) (z := nval a); split; auto.
Qed.

Lemma signed_det_val k z z' a : (0 < k)%nat -> signed k z a -> signed k z' a -> z = z'.
Proof. intros Hk H1 H2. rewrite (signed_val Hk H1), (signed_val Hk H2). reflexivity. Qed.

Lemma Zb_zero b : Zb b = 0 -> b = x00.
Proof. intros H. apply Zb_inj. exact H. Qed.

Lemma zeros_repeat p : (forall b, In b p -> Zb b = 0) -> p = repeat x00 (length p).
Proof.
  induction p as [|b p IH]; intros H; [reflexivity|]. cbn. f_equal.
  - apply Zb_zero, H. now left.
  - apply IH. intros c Hc. apply H. now right.
Qed.

Lemma zero_pad_det len p q : zero_pad len p -> zero_pad len q -> p = q.
Proof.
  intros (M1 & L1 & Z1) (M2 & L2 & Z2).
  rewrite (zeros_repeat _ Z1), (zeros_repeat _ Z2). f_equal.
  unfold zlen in *. lia.
Qed.

Lemma zero_pad_repeat len n : (len + Z.of_nat n) mod 4 = 0 -> (n < 4)%nat ->
  zero_pad len (repeat x00 n).
Proof.
  intros M L. unfold zero_pad, zlen. rewrite repeat_length. repeat split; [lia|lia|].
  intros b H. apply repeat_spec in H. now subst.
Qed.

Lemma zero_pad_any len p : zero_pad len p -> any_pad len p.
Proof. unfold zero_pad, any_pad. tauto. Qed.

(** RFC 4506 gives every value at most one encoding. *)
Lemma rfc_det_aux :
  (forall x a, rfc x a -> forall b, rfc x b -> a = b) /\
  (forall l a, rfcs l a -> forall b, rfcs l b -> a = b).
Proof.
  apply rfc_rfcs_ind; intros;
    match goal with H : rfc _ ?b |- _ = ?b => inversion H; subst; clear H
                  | H : rfcs _ ?b |- _ = ?b => inversion H; subst; clear H end;
    eauto using unsigned_det, signed_det;
    repeat match goal with
    | H1 : unsigned ?k ?z ?a, H2 : unsigned ?k ?z ?b |- _ =>
        pose proof (unsigned_det H1 H2); subst; clear H2
    | H1 : zero_pad ?l ?p, H2 : zero_pad ?l ?q |- _ =>
        pose proof (zero_pad_det H1 H2); subst; clear H2
    end; try reflexivity; repeat f_equal; eauto.
Qed.

Lemma rfc_det x a b : rfc x a -> rfc x b -> a = b.
Proof. intros; eapply (proj1 rfc_det_aux); eauto. Qed.

Lemma rfcs_det x a b : rfcs x a -> rfcs x b -> a = b.
Proof. intros; eapply (proj2 rfc_det_aux); eauto. Qed.

Lemma rfcs_app l1 l2 b1 b2 : rfcs l1 b1 -> rfcs l2 b2 -> rfcs (l1 ++ l2) (b1 ++ b2).
Proof.
  intros H; revert l2 b2; induction H; intros; cbn; auto.
  rewrite <- app_assoc. constructor; auto.
Qed.

(** ** [returns] *)

Lemma returns_det {A} (f : nat -> res A) r1 r2 : returns f r1 -> returns f r2 -> r1 = r2.
Proof.
  intros [_ [N1 H1]] [_ [N2 H2]].
  rewrite <- (H1 (Nat.max N1 N2)), <- (H2 (Nat.max N1 N2)) by lia. reflexivity.
Qed.
