(** C112: values of different Rust types that stand for the same XDR data. *)
From Verif Require Import Base SpecUtf8 RustTypes SpecXdr SpecTypes SpecDecode SpecMisc XdrFacts RvalFacts SerModel DeModel DecProofs EncProofs
  CodecProofs CodecLemmas SpecAlike.
Set Implicit Arguments.
Unset Strict Implicit.
Local Open Scope list_scope.

(** ** Reading *)
Ltac inv H := inversion H; subst; clear H.

Lemma product_accepts E ts t vs c : product ts t -> accepts E t (RSeq vs) c <-> accepts_all E ts vs c.
Proof. intros P. destruct P; split; intros H; try (inversion H; subst; assumption); now constructor. Qed.
Lemma empty_accepts E t v c : empty t v -> accepts E t v c <-> c = [].
Proof.
  intros [| |u P]; [| |rewrite (product_accepts E [] c P)]; split; intros H; try subst; try (now inversion H); constructor.
Qed.
Lemma views_length E ts vs us ws : views E ts vs us ws -> length vs = length ws /\ length ts = length vs /\ length us = length ws.
Proof. induction 1; cbn; intuition congruence. Qed.

Lemma enum_accepts E vss i x s vs c : nth_error vss i = Some (x, s) ->
  accepts E (TEnum vss) (RVariant i vs) c <->
  exists w b, c = w ++ b /\ unsigned 4 (Z.of_nat i) w /\ Z.of_nat i < 2 ^ 31 /\ accepts_all E (shape_types s) vs b.
Proof.
  intros N. split.
  - intros H. inv H; match goal with Q : nth_error vss i = Some _ |- _ => rewrite N in Q; injection Q as -> -> end; cbn [shape_types].
    + exists c, []. rewrite app_nil_r. split; [easy|split; [easy|split; [easy|constructor]]].
    + exists w, bs. split; [easy|split; [easy|split; [easy|]]]. rewrite <- (app_nil_r bs). constructor; [easy|constructor].
    + exists w, bs. split; [easy|split; [easy|split; easy]].
    + exists w, bs. split; [easy|split; [easy|split; easy]].
  - intros (w & b & -> & U & L & A). destruct s as [|t|ts|fs]; cbn [shape_types] in A.
    + inv A. rewrite app_nil_r. now apply ac_unit_variant with x.
    + inv A. match goal with Q : accepts_all E [] _ _ |- _ => inv Q end. rewrite app_nil_r. now apply ac_newtype_variant with x t.
    + now apply ac_tuple_variant with x ts.
    + now apply ac_struct_variant with x fs.
Qed.

Lemma int_word E s w z c : w = W32 \/ w = W64 -> accepts E (TInt s w) (RInt z) c <->
  int_range s w z /\ exists z', unsigned (int_bytes w) z' c /\ (z - z') mod 2 ^ bits w = 0.
Proof.
  intros W. split.
  - intros H. inv H. eauto.
  - intros (I & z' & U & M). eapply ac_int; eauto. now destruct W as [-> | ->].
Qed.
Lemma same_mod m a b : 0 <= a < m -> 0 <= b < m -> (a - b) mod m = 0 -> a = b.
Proof.
  intros A B H. apply mod_eq_sub in H; [|lia]. now rewrite !Z.mod_small in H by lia.
Qed.
Lemma word_range z w : unsigned 4 z w -> 0 <= z < 2 ^ 32.
Proof. intros U. exact (unsigned_range U). Qed.
Lemma long_range z w : unsigned 8 z w -> 0 <= z < 2 ^ 64.
Proof. intros U. exact (unsigned_range U). Qed.
Lemma u32_accepts E z c : accepts E u32 (RInt z) c <-> unsigned 4 z c.
Proof.
  rewrite int_word by auto. split.
  - intros (I & z' & U & M). cbn [int_bytes] in U. pose proof (word_range U). now rewrite (@same_mod (2 ^ 32) z z').
  - intros U. pose proof (word_range U). split; [easy|]. exists z. now rewrite Z.sub_diag.
Qed.
Lemma u64_accepts E z c : accepts E u64 (RInt z) c <-> unsigned 8 z c.
Proof.
  rewrite int_word by auto. split.
  - intros (I & z' & U & M). cbn [int_bytes] in U. pose proof (long_range U). now rewrite (@same_mod (2 ^ 64) z z').
  - intros U. pose proof (long_range U). split; [easy|]. exists z. now rewrite Z.sub_diag.
Qed.
Lemma halves z c : unsigned 8 z c -> exists a b, c = a ++ b /\ unsigned 4 (z / 2 ^ 32) a /\ unsigned 4 (z mod 2 ^ 32) b.
Proof.
  intros [L V]. do 8 (destruct c as [|? c]; [discriminate|]). destruct c; [|discriminate].
  exists [b; b0; b1; b2], [b3; b4; b5; b6]. split; [easy|]. subst z.
  pose proof (nval_range [b3; b4; b5; b6]) as R. change (256 ^ zlen [b3; b4; b5; b6]) with (2 ^ 32) in R.
  replace (nval [b; b0; b1; b2; b3; b4; b5; b6]) with (nval [b; b0; b1; b2] * 2 ^ 32 + nval [b3; b4; b5; b6])
    by (cbn [nval length]; change (2 ^ 32) with (256 ^ 4); cbn; ring).
  split; (split; [easy|]).
  - rewrite Z.div_add_l by lia. rewrite Z.div_small by lia. lia.
  - rewrite Z.add_comm, Z.mod_add by lia. rewrite Z.mod_small; lia.
Qed.
Lemma pairs_accept E tk tv kvs : forall c,
  accepts_all E (repeat (TTuple [tk; tv]) (length kvs)) (map (fun '(k, v) => RSeq [k; v]) kvs) c ->
  accepts_all E (flat_map (fun _ => [tk; tv]) kvs) (flat_map (fun '(k, v) => [k; v]) kvs) c.
Proof.
  induction kvs as [|[k v] kvs IH]; intros c H; cbn in *; [exact H|].
  inv H. match goal with Q : accepts E (TTuple _) _ _ |- _ => inv Q end.
  repeat match goal with Q : accepts_all E _ (_ :: _) _ |- _ => inv Q | Q : accepts_all E _ [] _ |- _ => inv Q end.
  rewrite app_nil_r, <- app_assoc. constructor; [easy|]. constructor; [easy|]. now apply IH.
Qed.

Lemma view_accepts E :
  (forall t v u w, view E t v u w -> forall c, accepts E t v c -> accepts E u w c) /\
  (forall ts vs us ws, views E ts vs us ws -> forall c, accepts_all E ts vs c -> accepts_all E us ws c).
Proof.
  apply view_views_ind.
  - easy.
  - intros. auto.
  - intros. now constructor.
  - intros t v c H. now inv H.
  - intros. now constructor.
  - intros t v c H. now inv H.
  - intros x t v L c H. now apply ac_ref with t.
  - intros x t v L c H. inv H. congruence.
  - intros ts t us u vs ws P Q _ IH c H. apply (product_accepts E ws c Q). apply IH. now apply (product_accepts E vs c P).
  - intros t v u w P Q c H. apply (empty_accepts E c Q). now apply (empty_accepts E c P).
  - intros t u vs ws V IH c H. inv H. apply views_length in V as (L & _). constructor; [|auto].
    unfold zlen in *. now rewrite <- L.
  - intros t u c H. inv H. now constructor.
  - intros t u v w _ IH c H. inv H. eapply ac_some; eauto.
  - intros vss vss' i x x' s s' vs ws N N' _ IH c H. apply (enum_accepts E vs c N) in H as (a & b & -> & U & L & A).
    apply (enum_accepts E ws _ N'). exists a, b. auto.
  - intros vss i x s vs N c H. apply (enum_accepts E vs c N) in H as (a & b & -> & U & L & A).
    constructor. constructor; [now apply u32_accepts|easy].
  - intros vss x N c H. apply (enum_accepts E [] c N) in H as (a & b & -> & U & L & A). inv A. rewrite app_nil_r. now constructor.
  - intros vss x N c H. apply (enum_accepts E [] c N) in H as (a & b & -> & U & L & A). inv A. rewrite app_nil_r.
    now apply ac_true with 1.
  - intros t c H. inv H. match goal with Q : accepts_all _ _ _ _ |- _ => inv Q end. rewrite app_nil_r. now constructor.
  - intros t v c H. inv H. match goal with Q : accepts_all _ _ _ _ |- _ => inv Q end.
    match goal with Q : accepts_all _ _ _ _ |- _ => inv Q end. rewrite app_nil_r. now apply ac_some with 1.
  - intros vss x t N c H. apply (enum_accepts E [] c N) in H as (a & b & -> & U & L & A). inv A. rewrite app_nil_r. now constructor.
  - intros vss x t v N c H. apply (enum_accepts E [v] c N) in H as (a & b & -> & U & L & A). inv A.
    match goal with Q : accepts_all _ _ _ _ |- _ => inv Q end. rewrite app_nil_r. now apply ac_some with 1.
  - intros z c H. inv H. now apply u32_accepts.
  - intros z c H. inv H. now apply u32_accepts.
  - intros z c H. apply u32_accepts in H. now constructor.
  - intros z c H. inv H. now apply u64_accepts.
  - intros z c H. apply u64_accepts in H. now constructor.
  - intros s s' w z z' W I M c H. apply int_word in H as (_ & q & U & M'); [|easy]. apply int_word; [easy|]. split; [easy|].
    exists q. split; [easy|]. assert (0 < 2 ^ bits w) by (destruct W as [-> | ->]; easy).
    replace (z' - q) with ((z' - z) + (z - q)) by lia. rewrite Z.add_mod, M, M' by lia. apply Z.mod_0_l. lia.
  - intros z c H. apply u64_accepts in H. destruct (halves H) as (a & b & -> & U & U'). constructor.
    constructor; [now apply u32_accepts|]. rewrite <- (app_nil_r b). constructor; [now apply u32_accepts|constructor].
  - intros bs c H. inv H. now constructor.
  - intros bs c H. inv H. now constructor.
  - intros bs c H. inv H. now constructor.
  - intros tk tv kvs D c H. inv H. rewrite map_length in *. apply ac_map with kvs.
    + unfold zlen in *. now rewrite map_length in *.
    + now apply pairs_accept.
    + now apply last_wins_id.
  - easy.
  - intros t v ts vs u w us ws _ IH _ IHs c H. inv H. constructor; auto.
Qed.

(** ** Writing *)
Lemma product_denotes R E ts t vs x : product ts t -> denotes R E t (RSeq vs) x ->
  exists xs, denotes_all R E ts vs xs /\ forall b, rfc x b -> rfcs xs b.
Proof. intros P H. destruct P; inv H; eexists; (split; [eassumption|]); intros b F; now inv F. Qed.
Lemma product_denotes_back R E ts t vs xs : product ts t -> denotes_all R E ts vs xs ->
  exists x, denotes R E t (RSeq vs) x /\ forall b, rfcs xs b -> rfc x b.
Proof. intros P H. destruct P; eexists; (split; [constructor; eassumption|]); intros b F; now constructor. Qed.

Lemma empty_denotes R E t v x : empty t v -> denotes R E t v x -> forall b, rfc x b -> b = [].
Proof.
  intros Q H b F. destruct Q as [| |t P]; [inv H; now inv F|inv H; now inv F|].
  destruct (product_denotes P H) as (xs & D & K). inv D. specialize (K b F). now inv K.
Qed.
Lemma empty_denotes_back R E t v : empty t v -> exists x, denotes R E t v x /\ rfc x [].
Proof.
  intros [| |u P]; [exists XVoid; split; constructor|exists XVoid; split; constructor|].
  destruct (@product_denotes_back R E [] u [] [] P) as (x & D & K); [constructor|]. exists x. split; [easy|]. apply K. constructor.
Qed.

Lemma rfc_enum_word z b : 0 <= z -> rfc (XEnum z) b -> unsigned 4 z b.
Proof. intros Z0 F. inv F. now apply signed_unsigned. Qed.
Lemma enum_word z b : z < 2 ^ 31 -> unsigned 4 z b -> rfc (XEnum z) b.
Proof. intros L U. constructor. apply DecProofs.unsigned_signed; [lia|easy|exact L]. Qed.

Lemma enum_denotes R E vss i x s vs y : nth_error vss i = Some (x, s) -> denotes R E (TEnum vss) (RVariant i vs) y ->
  Z.of_nat i < 2 ^ 31 /\ exists xs, denotes_all R E (shape_types s) vs xs /\
  forall b, rfc y b -> exists w c, b = w ++ c /\ unsigned 4 (Z.of_nat i) w /\ rfcs xs c.
Proof.
  intros N H. pose proof (Nat2Z.is_nonneg i) as P.
  inv H; match goal with Q : nth_error vss i = Some _ |- _ => rewrite N in Q; injection Q as -> -> end; (split; [easy|]); cbn [shape_types].
  - exists []. split; [constructor|]. intros b F. exists b, []. rewrite app_nil_r. split; [easy|]. split; [now apply rfc_enum_word|constructor].
  - exists [x0]. split; [constructor; [easy|constructor]|]. intros b F. inv F. exists b1, b2. split; [easy|].
    split; [now apply rfc_enum_word|]. rewrite <- (app_nil_r b2). constructor; [easy|constructor].
  - exists xs. split; [easy|]. intros b F. inv F. exists b1, b2. split; [easy|]. split; [now apply rfc_enum_word|].
    match goal with Q : rfc (XStruct _) _ |- _ => now inv Q end.
  - exists xs. split; [easy|]. intros b F. inv F. exists b1, b2. split; [easy|]. split; [now apply rfc_enum_word|].
    match goal with Q : rfc (XStruct _) _ |- _ => now inv Q end.
Qed.
Lemma enum_denotes_back R E vss i x s vs xs : nth_error vss i = Some (x, s) -> Z.of_nat i < 2 ^ 31 ->
  denotes_all R E (shape_types s) vs xs ->
  exists y, denotes R E (TEnum vss) (RVariant i vs) y /\
    forall w c, unsigned 4 (Z.of_nat i) w -> rfcs xs c -> rfc y (w ++ c).
Proof.
  intros N L D. destruct s as [|t|ts|fs]; cbn [shape_types] in D.
  - inv D. eexists. split; [eapply dn_unit_variant; eauto|]. intros w c U F. inv F. rewrite app_nil_r. now apply enum_word.
  - inv D. match goal with Q : denotes_all _ _ [] _ _ |- _ => inv Q end. eexists. split; [eapply dn_newtype_variant; eauto|].
    intros w c U F. inv F. match goal with Q : rfcs [] _ |- _ => inv Q end. rewrite app_nil_r. constructor; [now apply enum_word|easy].
  - eexists. split; [eapply dn_tuple_variant; eauto|]. intros w c U F. constructor; [now apply enum_word|now constructor].
  - eexists. split; [eapply dn_struct_variant; eauto|]. intros w c U F. constructor; [now apply enum_word|now constructor].
Qed.

Lemma xint_word s w z x b : w = W32 \/ w = W64 -> int_range s w z -> xint s w z = Some x -> rfc x b ->
  unsigned (int_bytes w) (z mod 2 ^ bits w) b.
Proof.
  intros W I X F. unfold int_range in I. destruct W as [-> | ->], s; cbn [xint int_bytes bits] in *; injection X as <-; inv F.
  all: match goal with Q : signed _ _ _ |- _ => destruct Q as [Q1 [Q2|Q2]] | Q : unsigned _ _ _ |- _ => destruct Q as [Q1 Q2] end; (split; [easy|]).
  - rewrite Z.mod_small; lia.
  - destruct Q2 as [Q2 ->]. rewrite <- (Z.mod_add z 1), Z.mul_1_l by lia. rewrite Z.mod_small; [reflexivity|lia].
  - rewrite Z.mod_small; lia.
  - rewrite Z.mod_small; lia.
  - destruct Q2 as [Q2 ->]. rewrite <- (Z.mod_add z 1), Z.mul_1_l by lia. rewrite Z.mod_small; [reflexivity|lia].
  - rewrite Z.mod_small; lia.
Qed.
Lemma word_xint s w z b : w = W32 \/ w = W64 -> int_range s w z -> unsigned (int_bytes w) (z mod 2 ^ bits w) b ->
  exists x, xint s w z = Some x /\ rfc x b.
Proof.
  intros W I [L V]. unfold int_range in I.
  destruct W as [-> | ->], s; cbn [xint int_bytes bits] in *; eexists; (split; [reflexivity|]); constructor; (split; [easy|]);
    try (rewrite V; apply Z.mod_small; lia).
  - destruct (Z.neg_nonneg_cases z) as [G|G]; [right|left; split; [lia|rewrite V; apply Z.mod_small; lia]].
    split; [lia|]. rewrite V, <- (Z.mod_add z 1), Z.mul_1_l by lia. apply Z.mod_small. lia.
  - destruct (Z.neg_nonneg_cases z) as [G|G]; [right|left; split; [lia|rewrite V; apply Z.mod_small; lia]].
    split; [lia|]. rewrite V, <- (Z.mod_add z 1), Z.mul_1_l by lia. apply Z.mod_small. lia.
Qed.

Lemma pairs_denote R E tk tv kvs : forall xs,
  denotes_all R E (repeat (TTuple [tk; tv]) (length kvs)) (map (fun '(k, v) => RSeq [k; v]) kvs) xs ->
  exists ks vs, xs = map (fun '(k, v) => XStruct [k; v]) (combine ks vs) /\
    denotes_all R E (repeat tk (length kvs)) (map fst kvs) ks /\ denotes_all R E (repeat tv (length kvs)) (map snd kvs) vs.
Proof.
  induction kvs as [|[k v] kvs IH]; intros xs H; cbn in *.
  - inv H. exists [], []. repeat split; constructor.
  - inv H. match goal with Q : denotes _ E (TTuple _) _ _ |- _ => inv Q end.
    match goal with Q : denotes_all _ E (repeat _ _) _ _ |- _ => apply IH in Q as (ks & vs & -> & K & V) end.
    repeat match goal with Q : denotes_all _ E [_; _] _ _ |- _ => inv Q | Q : denotes_all _ E [_] _ _ |- _ => inv Q
      | Q : denotes_all _ E [] _ _ |- _ => inv Q end.
    eexists (_ :: ks), (_ :: vs). split; [reflexivity|]. split; constructor; eassumption.
Qed.

Definition carries R E u w x := exists y, denotes R E u w y /\ forall b, rfc x b -> rfc y b.
Lemma denotes_all_zlen R E ts vs xs : denotes_all R E ts vs xs -> zlen xs = zlen vs.
Proof. induction 1; [reflexivity|]. rewrite !zlen_cons. lia. Qed.

Lemma view_denotes R E :
  (forall t v u w, view E t v u w -> forall x, denotes R E t v x -> carries R E u w x) /\
  (forall ts vs us ws, views E ts vs us ws -> forall xs, denotes_all R E ts vs xs ->
     exists ys, denotes_all R E us ws ys /\ forall b, rfcs xs b -> rfcs ys b).
Proof.
  apply view_views_ind; unfold carries.
  - eauto.
  - intros t v u w s x _ IH _ IH' y D. destruct (IH y D) as (a & Da & Ka). destruct (IH' a Da) as (b & Db & Kb). eauto.
  - intros t v x D. exists (XStruct [x]). split; [now constructor|]. intros b F. constructor. rewrite <- (app_nil_r b).
    constructor; [easy|constructor].
  - intros t v x D. inv D. eexists. split; [eassumption|]. intros b F. inv F.
    match goal with Q : rfcs _ _ |- _ => inv Q end. match goal with Q : rfcs [] _ |- _ => inv Q end. now rewrite app_nil_r.
  - intros t v x D. exists x. split; [now constructor|easy].
  - intros t v x D. inv D. eauto.
  - intros x t v L y D. exists y. split; [now apply dn_ref with t|easy].
  - intros x t v L y D. inv D. match goal with Q : lookup E x = _ |- _ => rewrite L in Q; injection Q as -> end. eauto.
  - intros ts t us u vs ws P Q _ IH x D. destruct (product_denotes P D) as (xs & Ds & K).
    destruct (IH xs Ds) as (ys & Ds' & K'). destruct (product_denotes_back Q Ds') as (y & D' & K''). exists y. auto.
  - intros t v u w P Q x D. destruct (empty_denotes_back R E Q) as (y & D' & F). exists y. split; [easy|].
    intros b G. now rewrite (empty_denotes P D G).
  - intros t u vs ws V IH x D. inv D. apply views_length in V as (L & _).
    match goal with Q : denotes_all _ _ _ _ _ |- _ => pose proof (denotes_all_zlen Q) as Z1; destruct (IH _ Q) as (ys & Ds & K) end.
    exists (XArray ys). split; [constructor; [unfold zlen in *; now rewrite <- L|easy]|].
    intros b F. inv F. constructor; [|auto]. rewrite (denotes_all_zlen Ds). rewrite Z1 in *. unfold zlen in *. now rewrite <- L.
  - intros t u x D. inv D. exists XNone. split; [constructor|easy].
  - intros t u v w _ IH x D. inv D. match goal with Q : denotes _ _ t _ _ |- _ => destruct (IH _ Q) as (y & D' & K) end.
    exists (XSome y). split; [now constructor|]. intros b F. inv F. constructor; auto.
  - intros vss vss' i x x' s s' vs ws N N' _ IH y D. destruct (enum_denotes N D) as (L & xs & Ds & K).
    destruct (IH xs Ds) as (ys & Ds' & K'). destruct (enum_denotes_back N' L Ds') as (y' & D' & K'').
    exists y'. split; [easy|]. intros b F. destruct (K b F) as (a & c & -> & U & F'). auto.
  - intros vss i x s vs N y D. destruct (enum_denotes N D) as (L & xs & Ds & K).
    exists (XStruct (XUInt (Z.of_nat i) :: xs)). split.
    + constructor. constructor; [|easy]. constructor; [cbn; lia|easy].
    + intros b F. destruct (K b F) as (a & c & -> & U & F'). constructor. constructor; [now constructor|easy].
  - intros vss x N y D. destruct (enum_denotes N D) as (L & xs & Ds & K). inv Ds. exists (XUInt 0). split; [exact (dn_bool R E false)|].
    intros b F. destruct (K b F) as (a & c & -> & U & F'). inv F'. rewrite app_nil_r. now constructor.
  - intros vss x N y D. destruct (enum_denotes N D) as (L & xs & Ds & K). inv Ds. exists (XUInt 1). split; [exact (dn_bool R E true)|].
    intros b F. destruct (K b F) as (a & c & -> & U & F'). inv F'. rewrite app_nil_r. now constructor.
  - intros t x D. inv D. match goal with Q : denotes_all _ _ _ _ _ |- _ => inv Q end. exists XNone. split; [constructor|].
    intros b F. inv F. match goal with Q : rfcs [] _ |- _ => inv Q end. rewrite app_nil_r. now constructor.
  - intros t v x D. inv D. cbn in *. match goal with Q : denotes_all _ _ _ _ _ |- _ => inv Q end.
    match goal with Q : denotes_all _ _ _ _ _ |- _ => inv Q end. eexists. split; [constructor; eassumption|].
    intros b F. inv F. match goal with Q : rfcs _ _ |- _ => inv Q end. match goal with Q : rfcs [] _ |- _ => inv Q end.
    rewrite app_nil_r. now constructor.
  - intros vss x t N y D. destruct (enum_denotes N D) as (L & xs & Ds & K). inv Ds. exists XNone. split; [constructor|].
    intros b F. destruct (K b F) as (a & c & -> & U & F'). inv F'. rewrite app_nil_r. now constructor.
  - intros vss x t v N y D. destruct (enum_denotes N D) as (L & xs & Ds & K). cbn in Ds. inv Ds.
    match goal with Q : denotes_all _ _ _ _ _ |- _ => inv Q end. eexists. split; [constructor; eassumption|].
    intros b F. destruct (K b F) as (a & c & -> & U & F'). inv F'. match goal with Q : rfcs [] _ |- _ => inv Q end.
    rewrite app_nil_r. now constructor.
  - intros c x D. inv D. exists (XUInt c). split; [|easy]. constructor; [|easy]. unfold is_scalar in *. cbn. lia.
  - intros z x D. inv D. exists (XUInt z). split; [now constructor|]. intros b F. inv F. now constructor.
  - intros z x D. inv D. match goal with Q : xint _ _ _ = _ |- _ => injection Q as <- end.
    exists (XFloat z). split; [now constructor|]. intros b F. inv F. now constructor.
  - intros z x D. inv D. exists (XUHyper z). split; [now constructor|]. intros b F. inv F. now constructor.
  - intros z x D. inv D. match goal with Q : xint _ _ _ = _ |- _ => injection Q as <- end.
    exists (XDouble z). split; [now constructor|]. intros b F. inv F. now constructor.
  - intros s s' w z z' W I M x D. inv D.
    assert (X : exists y, xint s' w z' = Some y) by (destruct W as [-> | ->], s'; cbn; eauto). destruct X as (y & X).
    exists y. split; [now constructor|]. intros b F.
    match goal with Q : int_range s w z, Q' : xint s w z = Some x |- _ => pose proof (xint_word W Q Q' F) as U end.
    replace (z mod 2 ^ bits w) with (z' mod 2 ^ bits w) in U
      by (apply mod_eq_sub; [destruct W as [-> | ->]; easy|easy]).
    destruct (word_xint W I U) as (y' & X' & F'). congruence.
  - intros z x D. inv D. match goal with Q : xint _ _ _ = _ |- _ => injection Q as <- end.
    exists (XStruct [XUInt (z / 2 ^ 32); XUInt (z mod 2 ^ 32)]). split.
    + match goal with Q : int_range _ _ _ |- _ => cbn in Q end.
      constructor. repeat constructor; cbn [bits int_range]; unfold int_range; cbn [bits].
      * apply Z.div_pos; lia.
      * apply Z.div_lt_upper_bound; lia.
      * apply Z.mod_pos_bound. lia.
      * apply Z.mod_pos_bound. lia.
    + intros b F. inv F. match goal with Q : unsigned 8 _ _ |- _ => destruct (halves Q) as (a & c & -> & U & U') end.
      constructor. constructor; [now constructor|]. rewrite <- (app_nil_r c). constructor; [now constructor|constructor].
  - intros bs x D. inv D. exists (XOpaque bs). split; [now constructor|]. intros b F. inv F. now constructor.
  - intros bs x D. inv D. exists (XOpaque bs). split; [now constructor|easy].
  - intros bs x D. inv D. exists (XOpaque bs). split; [now constructor|easy].
  - intros tk tv kvs N x D. inv D. rewrite map_length in *.
    match goal with Q : denotes_all _ _ _ _ _ |- _ => apply pairs_denote in Q as (ks & vs & -> & K & V) end.
    eexists. split; [constructor; try eassumption; unfold zlen in *; now rewrite map_length in *|easy].
  - intros xs D. inv D. exists []. split; [constructor|easy].
  - intros t v ts vs u w us ws _ IH _ IHs xs D. inv D.
    match goal with Q : denotes _ _ t _ _ |- _ => destruct (IH _ Q) as (y & D' & K) end.
    match goal with Q : denotes_all _ _ ts _ _ |- _ => destruct (IHs _ Q) as (ys & Ds & Ks) end.
    exists (y :: ys). split; [now constructor|]. intros b F. inv F. constructor; auto.
Qed.

(** ** The two together *)
Lemma alike_writable E t v u w b : view E t v u w -> writable E t v -> encodes E t v b ->
  writable E u w /\ encodes E u w b.
Proof.
  intros V [x D] T. destruct (to_bytes_rfc D) as (b' & F & T'). assert (b = b') by exact (returns_ok_inj T T'). subst b'.
  destruct (proj1 (view_denotes false E) _ _ _ _ V x D) as (y & D' & K). split; [now exists y|].
  destruct (to_bytes_rfc D') as (b' & F' & T''). unfold encodes. now rewrite (rfc_det (K b F) F').
Qed.
Lemma alike_supported E t v u w : view E t v u w -> supported E t v -> supported E u w.
Proof. intros V [x D]. destruct (proj1 (view_denotes true E) _ _ _ _ V x D) as (y & D' & _). now exists y. Qed.
Lemma alike_written E t v u w b : view E t v u w -> supported E t v -> encodes E t v b ->
  encodes E u w b /\ returns (fun n => from_bytes n E u b) (Ok w).
Proof.
  intros V [x D] T. destruct (to_bytes_rfc D) as (b' & F & T'). assert (b = b') by exact (returns_ok_inj T T'). subst b'.
  destruct (proj1 (view_denotes true E) _ _ _ _ V x D) as (y & D' & K).
  destruct (to_bytes_rfc D') as (b' & F' & T''). split; [unfold encodes; now rewrite (rfc_det (K b F) F')|].
  apply from_bytes_accepted. exact (denotes_accepts D' (K b F)).
Qed.
Lemma from_bytes_accepts n E t v c : from_bytes n E t c = Ok v -> accepts E t v c.
Proof.
  unfold from_bytes. intros H. destruct (deser n E t c) as [[v' r]| | | |] eqn:Q; try discriminate. cbn in H.
  destruct r as [|? ?]; [|discriminate]. injection H as ->. apply deser_accepts in Q as (c' & -> & A). now rewrite app_nil_r.
Qed.
Lemma alike_read E t v u w c : view E t v u w -> returns (fun n => from_bytes n E t c) (Ok v) ->
  returns (fun n => from_bytes n E u c) (Ok w).
Proof.
  intros V [_ [N H]]. apply from_bytes_accepted. apply (proj1 (view_accepts E) _ _ _ _ V).
  exact (from_bytes_accepts (H N (Nat.le_refl N))).
Qed.
Lemma alike_converse E t v u w c : view E t v u w -> supported E t v -> encodes E u w c ->
  encodes E t v c /\ returns (fun n => from_bytes n E t c) (Ok v).
Proof.
  intros V S T. destruct (round_trip S) as (b & T' & A). destruct (alike_written V S T') as (T'' & _).
  assert (b = c) by exact (returns_ok_inj T'' T). subst c. split; [exact T'|]. now apply from_bytes_accepted.
Qed.
