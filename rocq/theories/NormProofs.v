(** Normalisation of accepted input (C13) and absence of panics (C09). *)
From Verif Require Import Base SpecUtf8 SerModel RustTypes DeModel SpecXdr SpecTypes SpecDecode
  SpecMisc XdrFacts EncProofs ReadFacts RvalFacts DecProofs CodecProofs TotalProofs.
Set Implicit Arguments.
Unset Strict Implicit.

(** ** C13 *)

Lemma fold_all {A} (P : A -> Prop) l :
  fold_right (fun a Q => P a /\ Q) True l <-> Forall P l.
Proof.
  induction l as [|a l IH]; cbn; split; auto.
  - intros [H1 H2]. constructor; tauto.
  - intros H. inversion H. tauto.
Qed.

Lemma fold_allf {A B} (P : B -> Prop) (l : list (A * B)) :
  fold_right (fun '(_, b) Q => P b /\ Q) True l <-> Forall P (map snd l).
Proof.
  induction l as [|[a b] l IH]; cbn; split; auto.
  - intros [H1 H2]. constructor; tauto.
  - intros H. inversion H. tauto.
Qed.

Lemma fold_nth {A B} (P : B -> Prop) (l : list (A * B)) i a b :
  fold_right (fun '(_, b) Q => P b /\ Q) True l -> nth_error l i = Some (a, b) -> P b.
Proof.
  intros H Hn. apply fold_allf in H. rewrite Forall_forall in H. apply H.
  apply nth_error_In in Hn. now apply in_map with (f := snd) in Hn.
Qed.

Definition normal E t v (c : list byte) := reversible t ->
  exists x, denotes true E t v x /\ forall bs, rfc x bs -> zlen bs = zlen c.
Definition normals E ts vs (c : list byte) := Forall reversible ts ->
  exists xs, denotes_all true E ts vs xs /\ forall bs, rfcs xs bs -> zlen bs = zlen c.

Lemma unsigned_len k z w : unsigned k z w -> zlen w = Z.of_nat k.
Proof. intros [H _]. unfold zlen. lia. Qed.
Lemma signed_len k z w : signed k z w -> zlen w = Z.of_nat k.
Proof. intros [H _]. unfold zlen. lia. Qed.

Ltac lens := repeat match goal with
  | H : unsigned _ _ ?w |- _ => apply unsigned_len in H
  | H : signed _ _ ?w |- _ => apply signed_len in H
  | |- context [zlen (_ ++ _)] => rewrite zlen_app
  end.

Lemma pad_same n p q : any_pad n p -> zero_pad n q -> zlen p = zlen q.
Proof.
  intros [A1 A2] (B1 & B2 & _). pose proof (zlen_nonneg p). pose proof (zlen_nonneg q). lia.
Qed.

Lemma u32_bound z w : unsigned 4 z w -> z < 2 ^ 32.
Proof. intros U. apply unsigned_range in U. cbn in U. lia. Qed.

Lemma forall_repeat {A} (P : A -> Prop) a k : P a -> Forall P (repeat a k).
Proof. intros H. apply Forall_forall. intros b Hb. apply repeat_spec in Hb. now subst. Qed.

Lemma denotes_all_length R E ts vs xs : denotes_all R E ts vs xs -> length xs = length vs.
Proof. induction 1; cbn; congruence. Qed.

Ltac fin :=
  let b := fresh "b" in let Hb := fresh "Hb" in intros b Hb;
  repeat match goal with
  | H : rfc (_ _) _ |- _ => inversion H; subst; clear H
  | H : rfc XVoid _ |- _ => inversion H; subst; clear H
  | H : rfc XNone _ |- _ => inversion H; subst; clear H
  | H : rfcs (_ :: _) _ |- _ => inversion H; subst; clear H
  | H : rfcs [] _ |- _ => inversion H; subst; clear H
  end;
  repeat match goal with
  | L : (forall bs, rfc ?x bs -> _), H : rfc ?x ?b |- _ => apply L in H
  | L : (forall bs, rfcs ?x bs -> _), H : rfcs ?x ?b |- _ => apply L in H
  | A : any_pad ?n _, B : zero_pad ?n _ |- _ => pose proof (pad_same A B); clear B
  end;
  rewrite ?zlen_app in *; change (zlen (@nil byte)) with 0; lens; lia.

Lemma normal_main E : env_all reversible E ->
  (forall t v c, accepts E t v c -> normal E t v c) /\
  (forall ts vs c, accepts_all E ts vs c -> normals E ts vs c).
Proof.
  intros RE. apply accepts_accepts_all_ind; unfold normal, normals; intros.
  - (* bool *)
    exists (XUInt 0). split; [apply (@dn_bool true E false)|]. fin.
  - exists (XUInt 1). split; [apply (@dn_bool true E true)|]. fin.
  - (* int *)
    destruct s, w; try congruence; cbn [int_bytes] in *;
      (eexists; split; [econstructor; [eassumption|reflexivity]|]);
      intros b Hb; inversion Hb; subst; lens; lia.
  - exists (XFloat z). pose proof (unsigned_range H). split; [constructor; cbn in *; lia|].
    fin.
  - exists (XDouble z). pose proof (unsigned_range H). split; [constructor; cbn in *; lia|].
    fin.
  - exists (XUInt c). split; [now constructor|]. fin.
  - (* str *)
    exists (XString bs). pose proof (u32_bound H). split; [now constructor|].
    fin.
  - exists (XOpaque bs). pose proof (u32_bound H). split; [now constructor|].
    fin.
  - (* option *)
    exists XNone. split; [constructor|]. fin.
  - cbn in H3. destruct (H2 H3) as (x & D & L). exists (XSome x). split; [now constructor|].
    fin.
  - exists XVoid. split; [constructor|]. fin.
  - exists XVoid. split; [constructor|]. fin.
  - (* newtype *)
    destruct (H0 H1) as (x & D & L). exists (XStruct [x]). split; [now constructor|].
    fin.
  - destruct (H0 H1) as (x & D & L). exists x. split; [now constructor|]. exact L.
  - (* seq *)
    destruct H1 as (xs & D & L); [now apply forall_repeat|].
    exists (XArray xs). pose proof (u32_bound H). split; [now constructor|].
    fin.
  - destruct H0 as (xs & D & L); [now apply forall_repeat|].
    exists (XFArray xs). split; [now constructor|].
    fin.
  - destruct H0 as (xs & D & L); [now apply fold_all|].
    exists (XStruct xs). split; [now constructor|].
    fin.
  - destruct H0 as (xs & D & L); [now apply fold_all|].
    exists (XStruct xs). split; [now constructor|].
    fin.
  - destruct H0 as (xs & D & L); [now apply fold_allf|].
    exists (XStruct xs). split; [now constructor|].
    fin.
  - (* map *) destruct H3.
  - (* enum *)
    exists (XEnum (Z.of_nat i)). split; [now apply dn_unit_variant with name|].
    fin.
  - cbn in H4. pose proof (fold_nth H4 H1) as Ht. cbn in Ht.
    destruct (H3 Ht) as (x & D & L).
    exists (XUnion (XEnum (Z.of_nat i)) x). split; [now apply dn_newtype_variant with name t|].
    fin.
  - cbn in H4. pose proof (fold_nth H4 H1) as Ht. cbn in Ht. apply fold_all in Ht.
    destruct (H3 Ht) as (xs & D & L).
    exists (XUnion (XEnum (Z.of_nat i)) (XStruct xs)). split; [now apply dn_tuple_variant with name ts|].
    fin.
  - cbn in H4. pose proof (fold_nth H4 H1) as Ht. cbn in Ht. apply fold_allf in Ht.
    destruct (H3 Ht) as (xs & D & L).
    exists (XUnion (XEnum (Z.of_nat i)) (XStruct xs)). split; [now apply dn_struct_variant with name ts|].
    fin.
  - (* opaque *)
    exists (XFOpaque bs). split; [now constructor|].
    fin.
  - exists (XOpaque bs). pose proof (u32_bound H). split; [now constructor|].
    fin.
  - (* signed32 *)
    destruct (H1 _ _ H0) as (z' & Hz & Rz & Tz).
    exists (XEnum z'). split; [econstructor; eauto|].
    fin.
  - (* indexer *)
    destruct H6 as [[I1 I2] I3].
    pose proof (fold_nth I3 H1) as Ht. cbn in Ht. apply fold_all in Ht.
    destruct (I2 z name ts) as (z' & Z1 & Z2 & Z3); [easy|now apply nth_error_In in H1|].
    destruct (H5 Ht) as (xs & D & L).
    exists (XUnion (XInt z') (XStruct xs)). split; [econstructor; eauto|].
    fin.
  - (* union, unit *)
    destruct H4 as (_ & _ & I3). now pose proof (fold_nth I3 H2) as Ht.
  - destruct H7 as (I1 & I2 & I3).
    pose proof (fold_nth I3 H2) as Ht. cbn in Ht. apply fold_all in Ht.
    destruct (H0 I2) as (x & D1 & L1). destruct (H6 Ht) as (xs & D & L).
    exists (XUnion x (XStruct xs)). split; [econstructor; eauto|].
    fin.
  - destruct H1 as (x0 & D & L); [now apply RE with x|].
    exists x0. split; [econstructor; eauto|]. exact L.
  - exists []. split; [constructor|]. fin.
  - inversion H3; subst. destruct (H0 H6) as (x & D & L). destruct (H2 H7) as (xs & D' & L').
    exists (x :: xs). split; [now constructor|].
    fin.
Qed.

Lemma normalise E t b v n : env_all reversible E -> reversible t ->
  from_bytes n E t b = Ok v ->
  exists b', returns (fun n => to_bytes n E t v) (Ok b') /\ zlen b' = zlen b /\
             returns (fun n => from_bytes n E t b') (Ok v).
Proof.
  intros RE R H. apply from_bytes_inv in H. destruct (proj1 (normal_main RE) _ _ _ H R) as (x & D & L).
  destruct (to_bytes_rfc D) as (b' & F & T). exists b'. split; [exact T|]. split; [auto|].
  apply from_bytes_accepted. eapply denotes_accepts; eauto.
Qed.

(** ** C09 *)

Lemma bind_nopanic {A B} (r : res A) (f : A -> res B) :
  r <> Panic -> (forall a, r = Ok a -> f a <> Panic) -> bind r f <> Panic.
Proof. intros H1 H2. destruct r; cbn; auto; discriminate. Qed.

Lemma deser_aligned n E t i v r : zlen i mod 4 = 0 -> deser n E t i = Ok (v, r) -> zlen r mod 4 = 0.
Proof.
  intros Hi H. apply deser_accepts in H as (c & -> & A).
  apply (proj1 (accepts_aligned E)) in A. rewrite zlen_app in Hi. lia.
Qed.

Lemma read_nopanic k i : read k i <> Panic.
Proof. unfold read. destruct (zlen i <? k); discriminate. Qed.
Lemma read_u32_nopanic i : read_u32 i <> Panic.
Proof. apply bind_nopanic; [apply read_nopanic|]. intros [? ?]; discriminate. Qed.
Lemma read_i32_nopanic i : read_i32 i <> Panic.
Proof. apply bind_nopanic; [apply read_nopanic|]. intros [? ?]; discriminate. Qed.
Lemma read_u64_nopanic i : read_u64 i <> Panic.
Proof. apply bind_nopanic; [apply read_nopanic|]. intros [? ?]; discriminate. Qed.
Lemma read_i64_nopanic i : read_i64 i <> Panic.
Proof. apply bind_nopanic; [apply read_nopanic|]. intros [? ?]; discriminate. Qed.

Lemma de_int_nopanic s w i : de_int s w i <> Panic.
Proof.
  destruct s, w; unfold de_int; try discriminate; auto using read_u32_nopanic, read_i32_nopanic,
    read_u64_nopanic, read_i64_nopanic;
  (apply bind_nopanic; [auto using read_u32_nopanic, read_i32_nopanic|]; intros [? ?]; discriminate).
Qed.

Lemma slice_nopanic z (v i k : st) : zlen i mod 4 = 0 -> read z i = Ok (v, k) -> 0 <= z ->
  slice_from (4 - z mod 4) k <> Panic \/ z mod 4 = 0.
Proof.
  intros Hi H Hz. destruct (Z.eq_dec (z mod 4) 0) as [E|E]; [now right|]. left.
  apply read_inv in H as [-> L]; [|exact Hz]. rewrite zlen_app in Hi.
  unfold slice_from. pose proof (zlen_nonneg k).
  destruct (Z.ltb_spec (zlen k) (4 - z mod 4)); [lia|discriminate].
Qed.

Lemma word_aligned i z r : zlen i mod 4 = 0 -> read_u32 i = Ok (z, r) -> zlen r mod 4 = 0 /\ 0 <= z.
Proof.
  intros Hi H. apply read_u32_inv in H as (w & -> & U). pose proof (unsigned_range U).
  apply unsigned_len in U. rewrite zlen_app in Hi. lia.
Qed.

Lemma iword_aligned i z r : zlen i mod 4 = 0 -> read_i32 i = Ok (z, r) -> zlen r mod 4 = 0.
Proof.
  intros Hi H. apply read_i32_inv in H as (w & -> & U).
  apply signed_len in U. rewrite zlen_app in Hi. lia.
Qed.

Lemma read_string_nopanic i : zlen i mod 4 = 0 -> read_string i <> Panic.
Proof.
  intros Hi. apply bind_nopanic; [apply read_u32_nopanic|]. intros [z j] H1.
  destruct (word_aligned Hi H1) as [Hj Hz].
  apply bind_nopanic; [apply read_nopanic|]. intros [v k] H2.
  destruct (Utf8.utf8_ok v); [|discriminate].
  destruct (slice_nopanic Hj H2 Hz) as [S|S].
  - destruct (4 - z mod 4 <? 4); [|discriminate]. apply bind_nopanic; [exact S|discriminate].
  - rewrite S. discriminate.
Qed.

Lemma read_bytes_nopanic i : zlen i mod 4 = 0 -> read_bytes i <> Panic.
Proof.
  intros Hi. apply bind_nopanic; [apply read_u32_nopanic|]. intros [z j] H1.
  destruct (word_aligned Hi H1) as [Hj Hz].
  apply bind_nopanic; [apply read_nopanic|]. intros [v k] H2.
  destruct (slice_nopanic Hj H2 Hz) as [S|S].
  - destruct (4 - z mod 4 <? 4); [|discriminate]. apply bind_nopanic; [exact S|discriminate].
  - rewrite S. discriminate.
Qed.

Lemma de_variant_index_nopanic k i : de_variant_index k i <> Panic.
Proof.
  apply bind_nopanic; [apply read_i32_nopanic|]. intros [z j] _.
  destruct (z <? 0); [discriminate|]. destruct (z <? Z.of_nat k); discriminate.
Qed.

Lemma find_variant_none {B} name (l : list (string * B)) pos b :
  find_variant name l pos = None -> ~ In (name, b) l.
Proof.
  revert pos. induction l as [|[x c] l IH]; intros pos H I; cbn in *; [destruct I|].
  destruct (String.eqb_spec name x); [discriminate|].
  destruct I as [E|I]; [congruence|]. exact (IH _ H I).
Qed.

Section NoPanic.
  Context {A : Type}.
  Definition safe (p : parser A) : Prop :=
    forall i, zlen i mod 4 = 0 -> p i <> Panic /\ forall a r, p i = Ok (a, r) -> zlen r mod 4 = 0.

  Lemma read_seq_nopanic (ps : list (parser A)) i : Forall safe ps -> zlen i mod 4 = 0 ->
    read_seq ps i <> Panic.
  Proof.
    intros H. revert i. induction H as [|p ps Hp _ IH]; intros i Hi; cbn [read_seq]; [discriminate|].
    destruct (Hp i Hi) as [N S]. apply bind_nopanic; [exact N|]. intros [a j] E.
    apply S in E. apply bind_nopanic; [apply IH; lia|]. intros [? ?] _; discriminate.
  Qed.

  Lemma visit_fields_nopanic (ps : list (parser A)) pos c i : Forall safe ps -> zlen i mod 4 = 0 ->
    visit_fields ps pos (c, i) <> Panic.
  Proof.
    intros H. revert pos c i. induction H as [|p ps Hp _ IH]; intros pos c i Hi;
      cbn [visit_fields]; [discriminate|].
    destruct (Hp i Hi) as [N S]. unfold next_element. destruct (c =? 0); [discriminate|].
    destruct (p i) as [[a j]| | | |]; try discriminate; [|contradiction]. cbn [bind].
    specialize (S a j eq_refl). apply bind_nopanic; [apply IH; lia|]. intros [? ?] _; discriminate.
  Qed.

  Lemma visit_fields_unwrap_nopanic (ps : list (parser A)) c i : Forall safe ps -> zlen i mod 4 = 0 ->
    Z.of_nat (length ps) <= c -> visit_fields_unwrap ps (c, i) <> Panic.
  Proof.
    intros H. revert c i. induction H as [|p ps Hp _ IH]; intros c i Hi Hc;
      cbn [visit_fields_unwrap]; [discriminate|]. cbn [length] in Hc.
    destruct (Hp i Hi) as [N S]. unfold next_element.
    destruct (Z.eqb_spec c 0); [lia|].
    destruct (p i) as [[a j]| | | |]; try discriminate; [|contradiction]. cbn [bind].
    specialize (S a j eq_refl). apply bind_nopanic; [apply IH; lia|]. intros [? ?] _; discriminate.
  Qed.
End NoPanic.

Lemma deser_nopanic E (TE : env_all tables_total E) : forall n t i,
  tables_total t -> zlen i mod 4 = 0 -> deser n E t i <> Panic.
Proof.
  induction n as [|n IH]; intros t i T Hi; [discriminate|].
  assert (One : forall t, tables_total t -> safe (deser n E t)).
  { intros t' T' j Hj. split; [now apply IH|]. intros a r. now apply deser_aligned. }
  assert (All : forall ts, Forall tables_total ts -> Forall safe (map (deser n E) ts)).
  { intros ts F. apply Forall_forall. intros p Hp. apply in_map_iff in Hp as (t' & <- & I).
    rewrite Forall_forall in F. auto. }
  assert (Allf : forall ts : list (string * ty), Forall tables_total (map snd ts) ->
            Forall safe (map (fun f => deser n E (snd f)) ts)).
  { intros ts F. rewrite <- (map_map snd (deser n E)). auto. }
  destruct t; cbn [tables_total] in T; cbn [deser];
    try discriminate;
    try (apply bind_nopanic; [|intros [? ?] _; discriminate];
         auto using read_u32_nopanic, read_u64_nopanic, de_int_nopanic, read_string_nopanic,
           read_bytes_nopanic).
  - apply bind_nopanic; [apply read_u32_nopanic|]. intros [z j] _.
    destruct (Utf8.char_ok z); discriminate.
  - apply bind_nopanic; [apply read_u32_nopanic|]. intros [z j] Hr.
    destruct (word_aligned Hi Hr) as [Hj _].
    destruct (z =? 0); [discriminate|]. apply bind_nopanic; [|intros [? ?] _; discriminate].
    auto.
  - auto.
  - auto.
  - apply bind_nopanic; [apply read_u32_nopanic|]. intros [z j] Hr.
    destruct (word_aligned Hi Hr) as [Hj Hz].
    apply bind_nopanic; [|intros [? ?] _; discriminate].
    replace z with (Z.of_nat (Z.to_nat z)) by lia. rewrite visit_vec_seq.
    apply read_seq_nopanic; [|assumption]. apply forall_repeat. auto.
  - apply visit_fields_nopanic; [|assumption]. apply forall_repeat. auto.
  - apply visit_fields_nopanic; [|assumption]. apply All. now apply fold_all.
  - apply visit_fields_nopanic; [|assumption]. apply All. now apply fold_all.
  - apply visit_fields_nopanic; [|assumption]. apply Allf. now apply fold_allf.
  - destruct T as [T1 T2].
    apply bind_nopanic; [apply read_u32_nopanic|]. intros [z j] Hr.
    destruct (word_aligned Hi Hr) as [Hj Hz].
    apply bind_nopanic; [|intros [? ?] _; discriminate].
    replace z with (Z.of_nat (Z.to_nat z)) by lia. rewrite visit_map_seq.
    apply bind_nopanic; [|intros [? ?] _; discriminate].
    apply read_seq_nopanic; [|assumption]. apply forall_repeat.
    intros x Hx. destruct (One _ T1 x Hx) as [F1 R1]. split.
    + apply bind_nopanic; [exact F1|]. intros [k y] Ey. apply R1 in Ey.
      apply bind_nopanic; [now apply IH|]. intros [? ?] _; discriminate.
    + intros [k v] r Hkv. apply bind_ok in Hkv as ([k' y] & H1 & H2).
      apply bind_ok in H2 as ([v' y'] & H2 & H3). injection H3 as -> -> ->.
      apply R1 in H1. now apply (One _ T2 y H1) in H2.
  - apply bind_nopanic; [apply de_variant_index_nopanic|]. intros [k j] Hk.
    assert (Hj : zlen j mod 4 = 0).
    { apply de_variant_index_inv in Hk as (w & -> & U & _). apply unsigned_len in U.
      rewrite zlen_app in Hi. lia. }
    destruct (nth_error vs k) as [[name sh]|] eqn:Hn; [|discriminate].
    pose proof (fold_nth T Hn) as Ht. cbn in Ht.
    destruct sh as [|t|ts|ts]; try discriminate;
      (apply bind_nopanic; [|intros [? ?] _; discriminate]).
    + auto.
    + apply visit_fields_nopanic; [|assumption]. apply All. now apply fold_all.
    + apply visit_fields_nopanic; [|assumption]. apply Allf. now apply fold_allf.
  - destruct (de_opaque_fixed_cases n0 i) as [(bs & p & r & _ & _ & _ & _ & ->)|[_ ->]]; discriminate.
  - apply bind_nopanic; [apply read_u32_nopanic|]. intros [z j] Hr.
    destruct (word_aligned Hi Hr) as [Hj Hz].
    destruct (@enumerate_u8_cases z j Hz) as [(bs & p & r & _ & _ & _ & _ & ->)|[_ ->]]; discriminate.
  - apply bind_nopanic; [apply read_i32_nopanic|]. intros [z j] _.
    destruct (assoc Z.eqb z try_from); cbn; [discriminate|]. destruct d; try discriminate. now contradiction T.
  - destruct T as [[D N] F]. unfold next_element. cbn [Z.eqb].
    destruct (read_i32 i) as [[z j]| | | |] eqn:Hr; try discriminate; [|now apply read_i32_nopanic in Hr].
    apply iword_aligned in Hr; [|assumption]. cbn [bind].
    specialize (N z). destruct (with_dflt (assoc Z.eqb z names) d) as [name| |] eqn:Hd; try discriminate.
    + destruct (find_variant name vs 0) as [[k ts]|] eqn:Hf.
      * apply find_variant_spec in Hf as (x & _ & Hn & _).
        pose proof (fold_nth F Hn) as [L Ht]. apply fold_all in Ht.
        apply bind_nopanic; [|intros [? ?] _; discriminate].
        apply visit_fields_unwrap_nopanic; [now apply All|assumption|]. rewrite map_length. lia.
      * exfalso. destruct (N name eq_refl) as [b I]. now apply find_variant_none with (b := b) in Hf.
    + destruct (assoc Z.eqb z names); cbn in Hd; congruence.
  - destruct T as ([D N] & TD & F). unfold next_element. cbn [Z.eqb].
    destruct (One _ TD i Hi) as [P1 R1].
    destruct (deser n E t i) as [[v j]| | | |] eqn:Hr; try discriminate; [|contradiction].
    specialize (R1 v j eq_refl). cbn [bind].
    specialize (N v). destruct (with_dflt (assoc rval_eqb v names) d) as [name| |] eqn:Hd; try discriminate.
    + destruct (find_variant name vs 0) as [[k [ts|]]|] eqn:Hf; try discriminate.
      * apply find_variant_spec in Hf as (x & _ & Hn & _).
        pose proof (fold_nth F Hn) as [L Ht]. apply fold_all in Ht.
        apply bind_nopanic; [|intros [? ?] _; discriminate].
        apply visit_fields_unwrap_nopanic; [now apply All|assumption|]. rewrite map_length. lia.
      * exfalso. destruct (N name eq_refl) as [b I]. now apply find_variant_none with (b := b) in Hf.
    + destruct (assoc rval_eqb v names); cbn in Hd; congruence.
  - destruct (lookup E name) as [t'|] eqn:Hl; [|discriminate]. apply IH; [|assumption].
    now apply TE with name.
Qed.
