(** Consequences relating the two directions. *)
From Verif Require Import Base SpecUtf8 SerModel RustTypes DeModel SpecXdr SpecTypes SpecDecode
  SpecMisc XdrFacts EncProofs ReadFacts RvalFacts DecProofs.
Set Implicit Arguments.

(** ** RFC encodings of supported values are accepted *)

Inductive all3 {A B C} (P : A -> B -> C -> Prop) : list A -> list B -> list C -> Prop :=
| all3_nil : all3 P [] [] []
| all3_cons a b c l m n : P a b c -> all3 P l m n -> all3 P (a :: l) (b :: m) (c :: n).

Definition rfc_accepts E t v x := forall bs, rfc x bs -> accepts E t v bs.

Lemma all3_accepts E ts vs xs : all3 (rfc_accepts E) ts vs xs ->
  forall bs, rfcs xs bs -> accepts_all E ts vs bs.
Proof.
  induction 1 as [|t v x ts vs xs H _ IH]; intros bs Hb; inversion Hb; subst; constructor; auto.
Qed.

Lemma rfc_struct_inv l bs : rfc (XStruct l) bs -> rfcs l bs.
Proof. now inversion 1. Qed.

Lemma all3_pairs E tk tv kvs ks vs :
  all3 (rfc_accepts E) (repeat tk (length kvs)) (map fst kvs) ks ->
  all3 (rfc_accepts E) (repeat tv (length kvs)) (map snd kvs) vs ->
  forall bs, rfcs (map (fun '(k, v) => XStruct [k; v]) (combine ks vs)) bs ->
  accepts_all E (flat_map (fun _ => [tk; tv]) kvs) (flat_map (fun '(k, v) => [k; v]) kvs) bs.
Proof.
  revert ks vs. induction kvs as [|[k v] kvs IH]; intros ks vs Hk Hv bs Hb; cbn in *.
  - inversion Hk; subst. inversion Hb; subst. constructor.
  - inversion Hk; subst. inversion Hv; subst. cbn in Hb.
    inversion Hb as [|x l b bs' Hx Hl]; subst. apply rfc_struct_inv in Hx.
    inversion Hx as [|x1 l1 b1 bs1 Hx1 Hl1]; subst.
    inversion Hl1 as [|x2 l2 b2 bs2 Hx2 Hl2]; subst. inversion Hl2; subst.
    rewrite app_nil_r, <- app_assoc.
    constructor; [auto|]. constructor; [auto|]. eapply IH; eauto.
Qed.

Lemma all3_length {A B C} (P : A -> B -> C -> Prop) a b c : all3 P a b c ->
  length a = length b /\ length b = length c.
Proof. induction 1; cbn; lia. Qed.

Lemma signed_int_accepts (w : width) z b :
  match w with W64 | W128 => False | _ => True end ->
  int_range true w z -> signed 4 z b ->
  unsigned 4 (nval b) b /\ (z - nval b) mod 2 ^ bits w = 0.
Proof.
  intros Hw R [L H]. split; [split; auto|].
  assert (0 < 2 ^ bits w) by (apply Z.pow_pos_nonneg; destruct w; cbn; lia).
  destruct H as [[_ ->]|[_ ->]].
  - rewrite Z.sub_diag. apply Z.mod_0_l. lia.
  - change (2 ^ (8 * Z.of_nat 4)) with (2 ^ 32).
    replace (z - (z + 2 ^ 32)) with (- 2 ^ 32) by lia.
    destruct w; try contradiction; reflexivity.
Qed.

Lemma rfc_accepts_main E :
  (forall t v x, denotes true E t v x -> rfc_accepts E t v x) /\
  (forall ts vs xs, denotes_all true E ts vs xs -> all3 (rfc_accepts E) ts vs xs).
Proof.
  apply denotes_denotes_all_ind; intros; unfold rfc_accepts in *;
    try (match goal with |- forall bs, _ => intros bb Hb end);
    try (constructor; assumption);
    try (inversion Hb; subst; clear Hb; constructor; solve [eauto using zero_pad_any]).
  - (* bool *)
    inversion Hb; subst. destruct b.
    + eapply ac_true; [eassumption|lia].
    + now constructor.
  - (* int *)
    destruct s, w; cbn in H0; try discriminate; injection H0 as <-; inversion Hb; subst; clear Hb.
    1-3: match goal with A : signed _ _ _ |- _ =>
           match goal with |- accepts _ (TInt true ?w) _ _ =>
           destruct (@signed_int_accepts w z _ I H A) end end;
         econstructor; eauto; discriminate.
    + match goal with A : signed _ _ _ |- _ => destruct A as [L SA] end.
      eapply ac_int with (z' := nval bb); eauto; [discriminate|now split|].
      destruct SA as [[_ ->]|[_ ->]]; [now rewrite Z.sub_diag|].
      change (8 * Z.of_nat 8) with 64.
      replace (z - (z + 2 ^ 64)) with (- 2 ^ 64) by lia. reflexivity.
    + eapply ac_int; eauto; [discriminate|]. rewrite Z.sub_diag. reflexivity.
    + eapply ac_int; eauto; [discriminate|]. rewrite Z.sub_diag. reflexivity.
    + eapply ac_int; eauto; [discriminate|]. rewrite Z.sub_diag. reflexivity.
    + eapply ac_int; eauto; [discriminate|]. rewrite Z.sub_diag. reflexivity.
  - (* some *)
    inversion Hb; subst. eapply ac_some; eauto. lia.
  - (* newtype *)
    apply rfc_struct_inv in Hb. inversion Hb as [|x1 l b bs Hx Hl]; subst.
    inversion Hl; subst. rewrite app_nil_r. constructor. auto.
  - constructor. auto.
  - (* seq *)
    inversion Hb as [ | | | | | | | | | | |nn l bs U Hl| | | | | ]; subst.
    pose proof (all3_length H1) as L. constructor.
    + replace (zlen vs) with (zlen xs) by (unfold zlen; lia). exact U.
    + eapply all3_accepts; eauto.
  - inversion Hb; subst. constructor. eapply all3_accepts; eauto.
  - inversion Hb; subst. constructor. eapply all3_accepts; eauto.
  - inversion Hb; subst. constructor. eapply all3_accepts; eauto.
  - inversion Hb; subst. constructor. eapply all3_accepts; eauto.
  - (* map *)
    inversion Hb as [ | | | | | | | | | | |nn l bs U Hl| | | | | ]; subst.
    pose proof (all3_length H2) as L2. pose proof (all3_length H4) as L4.
    rewrite repeat_length, map_length in L2, L4.
    econstructor; [|eapply all3_pairs; eauto|now apply last_wins_id].
    replace (zlen kvs) with (zlen (map (fun '(k, v) => XStruct [k; v]) (combine ks vs))); [exact U|].
    unfold zlen. rewrite map_length, combine_length. lia.
  - (* unit variant *)
    inversion Hb; subst. eapply ac_unit_variant; eauto. apply signed_unsigned; [assumption|lia].
  - inversion Hb as [ | | | | | | | | | | | | |dd aa b1 b2 Hd Ha| | | ]; subst.
    inversion Hd; subst. eapply ac_newtype_variant; eauto. apply signed_unsigned; [assumption|lia].
  - inversion Hb as [ | | | | | | | | | | | | |dd aa b1 b2 Hd Ha| | | ]; subst.
    inversion Hd; subst. apply rfc_struct_inv in Ha.
    eapply ac_tuple_variant; eauto using all3_accepts. apply signed_unsigned; [assumption|lia].
  - inversion Hb as [ | | | | | | | | | | | | |dd aa b1 b2 Hd Ha| | | ]; subst.
    inversion Hd; subst. apply rfc_struct_inv in Ha.
    eapply ac_struct_variant; eauto using all3_accepts. apply signed_unsigned; [assumption|lia].
  - (* signed32 *)
    inversion Hb; subst. econstructor; eauto.
  - (* indexer *)
    destruct (H3 eq_refl) as [Hn Hl].
    inversion Hb as [ | | | | | | | | | | | | |dd aa b1 b2 Hd Ha| | | ]; subst.
    inversion Hd; subst. apply rfc_struct_inv in Ha.
    econstructor; eauto using all3_accepts. eapply nodup_first; eauto.
  - (* union *)
    destruct (H3 eq_refl) as [Hn Hl].
    inversion Hb as [ | | | | | | | | | | | | |dd aa b1 b2 Hd Ha| | | ]; subst.
    apply rfc_struct_inv in Ha.
    eapply ac_union; eauto using all3_accepts. eapply nodup_first; eauto.
  - econstructor; eauto.
Qed.

Lemma denotes_accepts E t v x bs : denotes true E t v x -> rfc x bs -> accepts E t v bs.
Proof. intros H. now apply (proj1 (rfc_accepts_main E)). Qed.

(** ** Reading back *)

Lemma deser_accepted E t v c : accepts E t v c ->
  forall r, returns (fun n => deser n E t (c ++ r)) (Ok (v, r)).
Proof.
  intros H r. split; [discriminate|].
  apply (proj1 (dec_main E)) in H as [N H]. exists N. auto.
Qed.

Lemma from_bytes_accepted E t v c : accepts E t v c ->
  returns (fun n => from_bytes n E t c) (Ok v).
Proof.
  intros H. split; [discriminate|].
  apply (proj1 (dec_main E)) in H as [N H]. exists N. intros n Hn.
  unfold from_bytes. specialize (H n Hn []). rewrite app_nil_r in H. rewrite H. reflexivity.
Qed.

Lemma from_bytes_trailing E t v c r : accepts E t v c -> r <> [] ->
  returns (fun n => from_bytes n E t (c ++ r)) (Err (ETrailingData (zlen r))).
Proof.
  intros H Hr. split; [discriminate|].
  apply (proj1 (dec_main E)) in H as [N H]. exists N. intros n Hn.
  unfold from_bytes. rewrite (H n Hn r). cbn. destruct r; [contradiction|reflexivity].
Qed.

Lemma from_bytes_inv n E t i v : from_bytes n E t i = Ok v -> accepts E t v i.
Proof.
  unfold from_bytes. intros H. apply bind_ok in H as ([v' r] & H & E1).
  destruct r; [|discriminate]. injection E1 as <-.
  apply deser_accepts in H as (c & -> & A). now rewrite app_nil_r.
Qed.

Lemma accepts_det E t v1 v2 c1 c2 r1 r2 : accepts E t v1 c1 -> accepts E t v2 c2 ->
  c1 ++ r1 = c2 ++ r2 -> v1 = v2 /\ r1 = r2.
Proof.
  intros H1 H2 Eq. apply deser_accepted with (r := r1) in H1.
  apply deser_accepted with (r := r2) in H2. rewrite Eq in H1.
  pose proof (returns_det H1 H2) as D. injection D. auto.
Qed.

Lemma round_trip E t v : supported E t v ->
  exists bs, returns (fun n => to_bytes n E t v) (Ok bs) /\
             accepts E t v bs.
Proof.
  intros [x H]. destruct (to_bytes_rfc H) as (bs & R & T). exists bs.
  split; [exact T|]. eapply denotes_accepts; eauto.
Qed.

Lemma returns_ok_inj {A} (f : nat -> res A) a b : returns f (Ok a) -> returns f (Ok b) -> a = b.
Proof. intros H1 H2. pose proof (returns_det H1 H2) as H. now injection H. Qed.

Lemma supported_accepts E t v bs : supported E t v ->
  returns (fun n => to_bytes n E t v) (Ok bs) -> accepts E t v bs.
Proof.
  intros H T. destruct (round_trip H) as (b & T' & A). now rewrite (returns_ok_inj T T').
Qed.

(** ** Alignment *)

Lemma accepts_aligned E :
  (forall t v c, accepts E t v c -> zlen c mod 4 = 0) /\
  (forall ts vs c, accepts_all E ts vs c -> zlen c mod 4 = 0).
Proof.
  apply accepts_accepts_all_ind; intros;
    repeat match goal with
    | H : unsigned _ _ _ |- _ => destruct H as [? ?]
    | H : signed _ _ _ |- _ => destruct H as [? ?]
    | H : any_pad _ _ |- _ => destruct H as [? ?]
    end; rewrite ?zlen_app in *; try assumption;
    try (unfold zlen in *; lia).
  all: try reflexivity.
  destruct w; cbn [int_bytes] in *; unfold zlen in *; lia.
Qed.

(** ** Minimum size *)

Lemma accepts_all_in E t : (forall v c, accepts E t v c -> 4 <= zlen c) ->
  forall ts vs c, accepts_all E ts vs c -> In t ts -> 4 <= zlen c.
Proof.
  intros H ts vs c A. induction A as [|t' ts v vs b bs Hb _ IH]; intros I; [destruct I|].
  rewrite zlen_app. pose proof (zlen_nonneg b). pose proof (zlen_nonneg bs).
  destruct I as [->|I]; [apply H in Hb; lia|]. apply IH in I. lia.
Qed.

Lemma occupies_min E t : occupies E t -> forall v c, accepts E t v c -> 4 <= zlen c.
Proof.
  induction 1; intros v0 c0 A; inversion A; subst;
    repeat match goal with
    | H : unsigned _ _ _ |- _ => destruct H as [? ?]
    | H : signed _ _ _ |- _ => destruct H as [? ?]
    | H : any_pad _ _ |- _ => destruct H as [? ?]
    end; rewrite ?zlen_app in *;
    try solve [unfold zlen in *; lia | eauto];
    try solve [match goal with H : accepts E _ _ _ |- _ => apply IHoccupies in H end;
               unfold zlen in *; lia].
  - destruct w; cbn [int_bytes] in *; unfold zlen in *; lia.
  - eapply accepts_all_in; eauto. destruct k; [lia|]. now left.
  - eapply accepts_all_in; eauto.
  - eapply accepts_all_in; eauto.
  - eapply accepts_all_in; eauto. apply in_map_iff. now exists (f, t).
  - match goal with A : lookup E x = Some ?u, B : lookup E x = Some ?v |- _ =>
      rewrite A in B; injection B as <- end. eauto.
Qed.

Lemma accepts_all_count E t k vs c : occupies E t -> accepts_all E (repeat t k) vs c ->
  4 * Z.of_nat k <= zlen c.
Proof.
  intros O. revert vs c. induction k as [|k IH]; intros vs c A; cbn in A.
  - pose proof (zlen_nonneg c). lia.
  - inversion A as [|t' ts v vs' b bs Hb Hbs]; subst. rewrite zlen_app.
    apply (occupies_min O) in Hb. apply IH in Hbs. lia.
Qed.
