(** Machine integers, big-endian bytes, results.

    Models the std items used by /repo/serde-xdr/src/{ser,de,opaque}.rs:
    [to_be_bytes], [from_be_bytes], [as] casts, [try_into] on integers, and
    [Result] with panics made explicit. *)
From Coq Require Export String.
From Coq Require Export List ZArith Lia Bool.
From Coq Require Export Init.Byte.
From Coq Require Import Strings.Byte.
Export ListNotations.
Open Scope Z_scope.
Open Scope list_scope.
Set Implicit Arguments.

Notation byte := Init.Byte.byte.

(** ** Results *)

(** Texts of [Error::Custom] are represented by what they report.
    serde-xdr/src/error.rs:27-43 (custom), serde-xdr/src/primitive.rs:19,
    serde-xdr-derive/src/lib.rs:100,223, serde's own messages. *)
Inductive msg :=
| MUser                      (* raised by a user Serialize impl *)
| MUnsupported128            (* serde default: "i128/u128 is not supported" *)
| MCannotConvert (z : Z)     (* "Can not convert from {}" *)
| MCannotConvertValue        (* "Can not convert from {:?}" (XdrUnion) *)
| MInvalidVariant (z : Z)    (* serde: invalid value, expected variant index *)
| MInvalidLength (n : Z).    (* serde: invalid length *)

(** serde-xdr/src/error.rs:8-17.  The payload of [Encoding] (position inside
    the string) is dropped. *)
Inductive error :=
| ECustom (m : msg)
| EConvert
| EEncoding
| ENotEnoughData (n : Z)
| ENotImplemented
| ENotSupported
| ETrailingData (n : Z).

(** [Ok]/[Err] are Rust's; [Panic] is an unwinding panic; [Fuel] means the
    model's recursion bound was reached (nothing is known); [Stuck] marks an
    ill-typed model term, which has no Rust counterpart. *)
Inductive res (A : Type) :=
| Ok (a : A)
| Err (e : error)
| Panic
| Fuel
| Stuck.
Arguments Ok {A} _.
Arguments Err {A} _.
Arguments Panic {A}.
Arguments Fuel {A}.
Arguments Stuck {A}.

Definition bind {A B} (r : res A) (f : A -> res B) : res B :=
  match r with
  | Ok a => f a
  | Err e => Err e
  | Panic => Panic
  | Fuel => Fuel
  | Stuck => Stuck
  end.

Notation "x <- e ;; f" := (bind e (fun x => f))
  (at level 61, e at next level, right associativity).
Notation "' p <- e ;; f" := (bind e (fun p => f))
  (at level 61, p pattern, e at next level, right associativity).

Section Lists.
  Context {A B : Type}.

  Section Map.
    Context (f : A -> res B).
    Fixpoint mapM (l : list A) : res (list B) :=
      match l with
      | [] => Ok []
      | x :: t => y <- f x;; ys <- mapM t;; Ok (y :: ys)
      end.
  End Map.

  Section Fold.
    Context (g : A -> B -> res B).
    Fixpoint foldM (l : list A) (b : B) : res B :=
      match l with
      | [] => Ok b
      | x :: t => b' <- g x b;; foldM t b'
      end.
  End Fold.
End Lists.

(** ** Bytes and big-endian numbers *)

Definition Zb (b : byte) : Z := Z.of_N (Byte.to_N b).

(** [z as u8] *)
Definition bZ (z : Z) : byte :=
  match Byte.of_N (Z.to_N (z mod 256)) with
  | Some b => b
  | None => x00
  end.

(** [to_be_bytes] of an [8*n]-bit integer (two's complement for negative z). *)
Fixpoint be_bytes (n : nat) (z : Z) : list byte :=
  match n with
  | O => []
  | S k => bZ (z / 256 ^ Z.of_nat k) :: be_bytes k z
  end.

(** [from_be_bytes] of an unsigned integer. *)
Definition be_val (bs : list byte) : Z :=
  fold_left (fun acc b => acc * 256 + Zb b) bs 0.

(** ** Casts *)

(** [z as uW] *)
Definition wrap_u (w z : Z) : Z := z mod 2 ^ w.

(** [z as iW] *)
Definition wrap_s (w z : Z) : Z :=
  let m := z mod 2 ^ w in if m <? 2 ^ (w - 1) then m else m - 2 ^ w.

Definition in_u (w z : Z) : bool := (0 <=? z) && (z <? 2 ^ w).
Definition in_s (w z : Z) : bool := (- 2 ^ (w - 1) <=? z) && (z <? 2 ^ (w - 1)).

Definition zlen {A} (l : list A) : Z := Z.of_nat (length l).

(** ** Bounded loops

    [loop_pos step p s] performs [step] up to [p] times, stopping as soon as
    it returns [inr]; binary in [p] so that huge counts exit early. *)
Section Loop.
  Context {S R : Type} (step : S -> S + R).

  Fixpoint loop_pos (p : positive) (s : S) : S + R :=
    match p with
    | xH => step s
    | xO q => match loop_pos q s with inl s' => loop_pos q s' | inr r => inr r end
    | xI q => match step s with
              | inl s0 => match loop_pos q s0 with
                          | inl s' => loop_pos q s'
                          | inr r => inr r
                          end
              | inr r => inr r
              end
    end.

  Fixpoint loop_nat (n : nat) (s : S) : S + R :=
    match n with
    | O => inl s
    | Datatypes.S k => match step s with inl s' => loop_nat k s' | inr r => inr r end
    end.

  (** [for _ in 0..z] *)
  Definition loopZ (z : Z) (s : S) : S + R :=
    match z with Z.pos p => loop_pos p s | _ => inl s end.

  Lemma loop_nat_add n m s :
    loop_nat (n + m) s =
    match loop_nat n s with inl s' => loop_nat m s' | inr r => inr r end.
  Proof.
    revert s; induction n as [|n IH]; intros s; cbn [Nat.add loop_nat]; [reflexivity|].
    destruct (step s) as [s'|r]; [apply IH|reflexivity].
  Qed.

  Lemma loop_pos_nat p s : loop_pos p s = loop_nat (Pos.to_nat p) s.
  Proof.
    revert s; induction p as [p IH|p IH|]; intros s; cbn [loop_pos].
    - rewrite Pos2Nat.inj_xI. cbn [loop_nat].
      destruct (step s) as [s0|r]; [|reflexivity].
      replace (2 * Pos.to_nat p)%nat with (Pos.to_nat p + Pos.to_nat p)%nat by lia.
      rewrite loop_nat_add, <- IH. destruct (loop_pos p s0) as [s'|r]; auto.
    - rewrite Pos2Nat.inj_xO.
      replace (2 * Pos.to_nat p)%nat with (Pos.to_nat p + Pos.to_nat p)%nat by lia.
      rewrite loop_nat_add, <- IH. destruct (loop_pos p s) as [s'|r]; auto.
    - change (Pos.to_nat 1) with 1%nat. cbn [loop_nat]. destruct (step s); reflexivity.
  Qed.

  Lemma loopZ_nat z s : loopZ z s = loop_nat (Z.to_nat z) s.
  Proof. destruct z as [|p|p]; cbn [loopZ Z.to_nat]; auto using loop_pos_nat. Qed.
End Loop.

(** ** Lemmas *)

Ltac Zify.zify_post_hook ::= Z.div_mod_to_equations.

Lemma bind_ok {A B} (r : res A) (f : A -> res B) b :
  bind r f = Ok b -> exists a, r = Ok a /\ f a = Ok b.
Proof. destruct r; cbn; intros H; try discriminate; eauto. Qed.

Lemma Zb_range b : 0 <= Zb b < 256.
Proof.
  unfold Zb. pose proof (Byte.to_N_bounded b). lia.
Qed.

Lemma Zb_bZ z : Zb (bZ z) = z mod 256.
Proof.
  unfold bZ, Zb.
  assert (H : 0 <= z mod 256 < 256) by (apply Z.mod_pos_bound; lia).
  destruct (Byte.of_N (Z.to_N (z mod 256))) as [b|] eqn:E.
  - apply Byte.to_of_N in E. rewrite E. lia.
  - apply Byte.of_N_None_iff in E. lia.
Qed.

Lemma Zb_inj a b : Zb a = Zb b -> a = b.
Proof.
  unfold Zb. intros H. apply N2Z.inj in H.
  assert (Some a = Some b) as E.
  { rewrite <- (Byte.of_to_N a), <- (Byte.of_to_N b). now rewrite H. }
  now inversion E.
Qed.

Lemma bZ_Zb b : bZ (Zb b) = b.
Proof.
  apply Zb_inj. rewrite Zb_bZ. apply Z.mod_small, Zb_range.
Qed.

Lemma be_bytes_length n z : length (be_bytes n z) = n.
Proof. induction n as [|n IH]; cbn; auto. Qed.

Lemma fold_be_val bs acc :
  fold_left (fun acc b => acc * 256 + Zb b) bs acc
  = acc * 256 ^ zlen bs + be_val bs.
Proof.
  unfold be_val, zlen. revert acc; induction bs as [|b bs IH]; intros acc.
  - cbn. lia.
  - cbn [fold_left length]. rewrite IH, (IH (0 * 256 + Zb b)).
    rewrite Nat2Z.inj_succ, Z.pow_succ_r by lia. lia.
Qed.

Lemma be_val_cons b bs : be_val (b :: bs) = Zb b * 256 ^ zlen bs + be_val bs.
Proof.
  unfold be_val at 1. cbn [fold_left]. rewrite fold_be_val. lia.
Qed.

Lemma be_val_range bs : 0 <= be_val bs < 256 ^ zlen bs.
Proof.
  induction bs as [|b bs IH].
  - cbn. lia.
  - rewrite be_val_cons. unfold zlen in *. cbn [length].
    rewrite Nat2Z.inj_succ, Z.pow_succ_r by lia.
    pose proof (Zb_range b). nia.
Qed.

Lemma be_val_be_bytes n z : be_val (be_bytes n z) = z mod 256 ^ Z.of_nat n.
Proof.
  induction n as [|n IH].
  - cbn. now rewrite Z.mod_1_r.
  - cbn [be_bytes]. rewrite be_val_cons, IH, Zb_bZ. unfold zlen.
    rewrite be_bytes_length.
    rewrite Nat2Z.inj_succ, Z.pow_succ_r by lia.
    assert (0 < 256 ^ Z.of_nat n) by (apply Z.pow_pos_nonneg; lia).
    rewrite (Z.mul_comm 256). rewrite Z.rem_mul_r by lia. lia.
Qed.

Lemma be_bytes_mod n z : be_bytes n (z mod 256 ^ Z.of_nat n) = be_bytes n z.
Proof.
  (* digits below position n do not depend on higher ones *)
  assert (G : forall k m z, (k <= m)%nat ->
            be_bytes k (z mod 256 ^ Z.of_nat m) = be_bytes k z).
  { clear. induction k as [|k IH]; intros m z Hk; [reflexivity|].
    cbn [be_bytes]. rewrite IH by lia. f_equal.
    apply Zb_inj. rewrite !Zb_bZ.
    replace (Z.of_nat m) with (Z.of_nat k + Z.succ (Z.of_nat (m - S k))) by lia.
    rewrite Z.pow_add_r by lia.
    assert (0 < 256 ^ Z.of_nat k) by (apply Z.pow_pos_nonneg; lia).
    assert (0 < 256 ^ Z.succ (Z.of_nat (m - S k))) by (apply Z.pow_pos_nonneg; lia).
    rewrite Z.rem_mul_r by lia.
    rewrite (Z.mul_comm (256 ^ Z.of_nat k)), Z.div_add by lia.
    rewrite (Z.div_small (z mod 256 ^ Z.of_nat k)) by (apply Z.mod_pos_bound; lia).
    rewrite Z.add_0_l.
    rewrite Z.pow_succ_r by lia.
    assert (0 < 256 ^ Z.of_nat (m - S k)) by (apply Z.pow_pos_nonneg; lia).
    rewrite Z.rem_mul_r by lia.
    rewrite Z.mul_comm, Z.mod_add by lia. apply Z.mod_mod; lia. }
  apply G; lia.
Qed.

Lemma be_bytes_be_val bs : be_bytes (length bs) (be_val bs) = bs.
Proof.
  induction bs as [|b bs IH]; [reflexivity|].
  cbn [length be_bytes]. rewrite be_val_cons. unfold zlen.
  pose proof (be_val_range bs) as R. unfold zlen in R.
  assert (0 < 256 ^ Z.of_nat (length bs)) by (apply Z.pow_pos_nonneg; lia).
  f_equal.
  - rewrite Z.add_comm, Z.div_add by lia. rewrite (Z.div_small (be_val bs)) by lia.
    apply bZ_Zb.
  - rewrite <- be_bytes_mod, Z.add_comm, Z.mod_add by lia.
    rewrite Z.mod_small by lia. exact IH.
Qed.

Lemma wrap_u_id w z : in_u w z = true -> wrap_u w z = z.
Proof. unfold in_u, wrap_u. intros H. apply Z.mod_small. lia. Qed.

Lemma wrap_s_id w z : 0 < w -> in_s w z = true -> wrap_s w z = z.
Proof.
  unfold in_s, wrap_s. intros Hw H.
  assert (E : 2 ^ w = 2 * 2 ^ (w - 1)).
  { rewrite <- Z.pow_succ_r by lia. f_equal; lia. }
  assert (0 < 2 ^ (w - 1)) by (apply Z.pow_pos_nonneg; lia).
  rewrite E. set (h := 2 ^ (w - 1)) in *. clearbody h. clear E.
  apply andb_true_iff in H as [H1 H2].
  apply Z.leb_le in H1. apply Z.ltb_lt in H2.
  destruct (Z_lt_le_dec z 0) as [L|L].
  - assert (E2 : z mod (2 * h) = z + 2 * h).
    { symmetry. apply Z.mod_unique with (q := -1); lia. }
    rewrite E2. destruct (Z.ltb_spec (z + 2 * h) h); lia.
  - rewrite Z.mod_small by lia. destruct (Z.ltb_spec z h); lia.
Qed.

Lemma wrap_u_range w z : 0 <= w -> in_u w (wrap_u w z) = true.
Proof.
  intros Hw. unfold in_u, wrap_u.
  assert (0 < 2 ^ w) by (apply Z.pow_pos_nonneg; lia).
  pose proof (Z.mod_pos_bound z (2 ^ w) ltac:(lia)). lia.
Qed.

Lemma wrap_s_range w z : 0 < w -> in_s w (wrap_s w z) = true.
Proof.
  intros Hw. unfold in_s, wrap_s.
  assert (E : 2 ^ w = 2 * 2 ^ (w - 1)).
  { rewrite <- Z.pow_succ_r by lia. f_equal; lia. }
  assert (0 < 2 ^ (w - 1)) by (apply Z.pow_pos_nonneg; lia).
  rewrite E. set (h := 2 ^ (w - 1)) in *. clearbody h.
  pose proof (Z.mod_pos_bound z (2 * h) ltac:(lia)) as B.
  destruct (Z.ltb_spec (z mod (2 * h)) h); lia.
Qed.

Lemma zlen_app {A} (a b : list A) : zlen (a ++ b) = zlen a + zlen b.
Proof. unfold zlen. rewrite app_length. lia. Qed.

Lemma zlen_cons {A} (a : A) b : zlen (a :: b) = 1 + zlen b.
Proof. unfold zlen. cbn [length]. lia. Qed.

Lemma zlen_nonneg {A} (a : list A) : 0 <= zlen a.
Proof. unfold zlen. lia. Qed.
