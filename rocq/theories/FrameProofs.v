(** Reading messages from a stream (C108). *)
From Verif Require Import Base SpecUtf8 Utf8 RustTypes SerModel DeModel SpecXdr SpecTypes XdrFacts ReadFacts EncProofs DecProofs CodecProofs CodecLemmas StreamProofs SpecFrame.
Set Implicit Arguments.
Unset Strict Implicit.
Local Open Scope list_scope.

Lemma returns_same {A} (f : nat -> res A) r s : returns f r -> returns f s -> r = s.
Proof. intros [_ [N H]] [_ [M K]]. rewrite <- (H (Nat.max N M)), <- (K (Nat.max N M)); [easy|lia|lia]. Qed.
Lemma returns_units E t c v : returns (fun n => from_bytes n E t c) (Ok v) -> zlen c mod 4 = 0.
Proof. intros [_ [N H]]. exact (c08 (H N (Nat.le_refl N))). Qed.
Lemma split_list {A} (l : list A) k : 0 <= k <= zlen l -> exists a b, l = a ++ b /\ zlen a = k.
Proof.
  intros H. exists (firstn (Z.to_nat k) l), (skipn (Z.to_nat k) l). split; [now rewrite firstn_skipn|]. unfold zlen in *. rewrite firstn_length. lia.
Qed.

(** with the beginning [p] of an accepted input at hand *)
Lemma units_from E t v s : forall len p q, (length q <= len)%nat -> zlen p mod 4 = 0 ->
  returns (fun n => from_bytes n E t (p ++ q)) (Ok v) -> exists m, reading units E t p (q ++ s) (Ok v) s m /\ 4 * Z.of_nat m <= zlen q.
Proof.
  induction len as [|len IH]; intros p q LQ P R.
  - destruct q; [|cbn in LQ; lia]. rewrite app_nil_r in R. exists 0%nat. split; [|unfold zlen; cbn; lia]. now apply re_end.
  - destruct q as [|b q]; [exists 0%nat; rewrite app_nil_r in R; split; [now apply re_end|unfold zlen; cbn; lia]|].
    assert (NE : b :: q <> []) by discriminate. set (l := b :: q) in *. pose proof (returns_units R) as U. rewrite zlen_app in U.
    destruct (cut_short R NE) as (k & K & [H|(H & K4 & KM)]); [|exfalso; clear - P K K4 KM; Z.to_euclidean_division_equations; lia].
    assert (KU : 0 < units k <= zlen l /\ 4 <= units k /\ units k mod 4 = 0).
    { unfold units. clear - U P K. Z.to_euclidean_division_equations; lia. }
    destruct (@split_list _ l (units k)) as (x & y & -> & LX); [lia|]. destruct KU as (_ & K4 & KM).
    rewrite app_assoc in R. destruct (IH (p ++ x) y) as (m & RD & LM); [| |exact R|].
    + rewrite app_length in LQ. unfold zlen in LX. lia.
    + rewrite zlen_app, LX. clear - P KM. Z.to_euclidean_division_equations; lia.
    + exists (S m). rewrite <- app_assoc. split; [|rewrite zlen_app; lia]. now apply re_more with k.
Qed.
Lemma reading_fun more E t have s r s' m : reading more E t have s r s' m -> forall r2 s2 m2, reading more E t have s r2 s2 m2 -> r2 = r /\ s2 = s' /\ m2 = m.
Proof.
  induction 1 as [have s r R N|have a s k r s' m R L _ IH]; intros r2 s2 m2 H.
  - inversion H as [? ? ? R2 N2|? a2 ? k2 ? ? ? R2]; subst; pose proof (returns_same R R2) as E2; [easy|]. now destruct (N k2).
  - inversion H as [? ? ? R2 N2|? a2 s0 k2 ? ? ? R2 L2 H2 EQ1 EQ2]; subst; pose proof (returns_same R R2) as E2; [now destruct (N2 k)|].
    injection E2 as <-. assert (LE : length a2 = length a) by (unfold zlen in *; lia).
    assert (AE : a2 = a /\ s0 = s).
    { clear - LE EQ2. revert a LE EQ2. induction a2 as [|c a2 IH]; intros [|c' a] LE EQ; try discriminate; [easy|].
      injection EQ as -> EQ. injection LE as LE. now destruct (IH a LE EQ) as [-> ->]. }
    destruct AE as [-> ->]. now destruct (IH _ _ _ H2) as (-> & -> & ->).
Qed.

Theorem framed E t c v s : returns (fun n => from_bytes n E t c) (Ok v) ->
  (exists m, reading units E t [] (c ++ s) (Ok v) s m /\ 4 * Z.of_nat m <= zlen c) /\
  forall r s' m, reading units E t [] (c ++ s) r s' m -> r = Ok v /\ s' = s.
Proof.
  intros R. destruct (@units_from E t v s (length c) [] c) as (m & H & L); [easy|easy|exact R|]. split; [eauto|].
  intros r s' m' H'. now destruct (reading_fun H H') as (-> & -> & _).
Qed.

Theorem framed_all E t s : forall cs vs, Forall2 (fun c v => returns (fun n => from_bytes n E t c) (Ok v)) cs vs ->
  reading_all units E t (concat cs ++ s) vs s.
Proof.
  intros cs vs H. induction H as [|c v cs vs R _ IH]; [constructor|]. cbn [concat]. rewrite <- app_assoc.
  destruct (framed (concat cs ++ s) R) as [(m & K & _) _]. econstructor; eauto.
Qed.

(** without rounding: the value or a panic *)
Lemma said_from E t v s have st r s' m : reading as_said E t have st r s' m -> forall q, st = q ++ s ->
  returns (fun n => from_bytes n E t (have ++ q)) (Ok v) -> r = Ok v /\ s' = s \/ r = Panic.
Proof.
  induction 1 as [have st r R N|have a st k r s' m R L _ IH]; intros q E1 RV.
  - destruct q as [|b q]; [rewrite app_nil_r in RV; pose proof (returns_same R RV) as ->; now left|].
    assert (NE : b :: q <> []) by discriminate. destruct (cut_short RV NE) as (k & _ & [H|(H & _)]); pose proof (returns_same R H) as ->; [now destruct (N k)|now right].
  - destruct q as [|b q]; [rewrite app_nil_r in RV; discriminate (returns_same R RV)|].
    assert (NE : b :: q <> []) by discriminate. set (l := b :: q) in *.
    destruct (cut_short RV NE) as (k' & K & [H|(H & _)]); pose proof (returns_same R H) as E2; [injection E2 as <-|discriminate].
    unfold as_said in L. assert (SP : exists y, l = a ++ y /\ st = y ++ s).
    { exists (skipn (length a) l). assert (LA : (length a <= length l)%nat) by (unfold zlen in *; lia).
      assert (A : firstn (length a) (a ++ st) = firstn (length a) (l ++ s)) by now rewrite E1.
      rewrite !firstn_app, firstn_all, Nat.sub_diag, app_nil_r in A. replace (length a - length l)%nat with 0%nat in A by lia. rewrite firstn_O, app_nil_r in A.
      assert (B : skipn (length a) (a ++ st) = skipn (length a) (l ++ s)) by now rewrite E1.
      rewrite !skipn_app, skipn_all, Nat.sub_diag in B. replace (length a - length l)%nat with 0%nat in B by lia. cbn [app skipn] in B.
      split; [rewrite A at 1; now rewrite firstn_skipn|exact B]. }
    destruct SP as (y & EL & ES). apply (IH y ES). now rewrite <- app_assoc, <- EL.
Qed.
Theorem unrounded E t c v s : returns (fun n => from_bytes n E t c) (Ok v) ->
  forall r s' m, reading as_said E t [] (c ++ s) r s' m -> r = Ok v /\ s' = s \/ r = Panic.
Proof. intros R r s' m H. exact (said_from H eq_refl R). Qed.
