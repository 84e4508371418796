(** C123: where a text stops to be UTF-8. *)
From Verif Require Import Base SpecUtf8 Utf8 Utf8Proofs SerModel RustTypes DeModel SpecXdr SpecTypes SpecDecode SpecMisc XdrFacts ReadFacts DecProofs CodecLemmas Utf8Error.
Set Implicit Arguments.
Unset Strict Implicit.
Local Open Scope list_scope.

Lemma ok_app n : forall p r, (length p <= n)%nat -> utf8_ok p = true -> utf8_ok (p ++ r) = utf8_ok r.
Proof.
  induction n as [|n IH]; intros [|b0 p] r L H; cbn in L; try lia; try reflexivity. cbn [utf8_ok app] in *.
  destruct (Zb b0 <? 128); [apply IH; [lia|exact H]|].
  destruct (between 194 223 b0).
  { destruct p as [|b1 p]; [discriminate|]. cbn in L. apply andb_prop in H as [C H]. cbn [app]. rewrite C. cbn. apply IH; [lia|exact H]. }
  destruct (between 224 239 b0).
  { destruct p as [|b1 [|b2 p]]; try discriminate. cbn in L. apply andb_prop in H as [C H]. cbn [app]. rewrite C. cbn. apply IH; [lia|exact H]. }
  destruct (between 240 244 b0); [|discriminate].
  destruct p as [|b1 [|b2 [|b3 p]]]; try discriminate. cbn in L. apply andb_prop in H as [C H]. cbn [app]. rewrite C. cbn. apply IH; [lia|exact H].
Qed.
Lemma ok_after p r : utf8_ok p = true -> utf8_ok (p ++ r) = utf8_ok r.
Proof. intros H. exact (@ok_app (length p) p r (le_n _) H). Qed.

Definition wrong (q : list byte) (l : option Z) : Prop :=
  (forall a b, q = a ++ b -> a <> [] -> utf8_ok a = false) /\
  (l = None -> exists x, utf8_ok (q ++ x) = true) /\
  (l <> None -> forall x, utf8_ok (q ++ x) = false) /\
  (forall j, l = Some j -> 1 <= j <= 3 /\ j <= zlen q).

Lemma error_none k bs : utf8_error k bs = None <-> utf8_ok bs = true.
Proof.
  assert (G : forall n bs k, (length bs <= n)%nat -> (utf8_error k bs = None <-> utf8_ok bs = true)).
  { clear. induction n as [|n IH]; intros [|b0 p] k L; cbn in L; try lia; try (split; reflexivity). cbn [utf8_ok utf8_error].
    destruct (Zb b0 <? 128); [apply IH; lia|].
    destruct (between 194 223 b0).
    { destruct p as [|b1 p]; [split; discriminate|]. cbn in L. destruct (cont b1); cbn [andb]; [apply IH; lia|split; discriminate]. }
    destruct (between 224 239 b0).
    { destruct p as [|b1 p]; [split; discriminate|]. destruct p as [|b2 p]; [destruct (ok3 b0 b1); split; discriminate|]. cbn in L.
      destruct (ok3 b0 b1); [|split; discriminate]. destruct (cont b2); cbn [andb]; [apply IH; lia|split; discriminate]. }
    destruct (between 240 244 b0); [|split; discriminate].
    destruct p as [|b1 p]; [split; discriminate|]. destruct p as [|b2 p]; [destruct (ok4 b0 b1); split; discriminate|].
    destruct p as [|b3 p]; [destruct (ok4 b0 b1), (cont b2); split; discriminate|]. cbn in L.
    destruct (ok4 b0 b1); [|split; discriminate]. destruct (cont b2); [|split; discriminate]. destruct (cont b3); cbn [andb]; [apply IH; lia|split; discriminate]. }
  exact (G (length bs) bs k (le_n _)).
Qed.

Lemma more3 b0 : between 224 239 b0 = true -> exists b1, ok3 b0 b1 = true.
Proof. intros H. destruct b0; try discriminate H; first [now exists x80|now exists xa0]. Qed.
Lemma more4 b0 : between 240 244 b0 = true -> exists b1, ok4 b0 b1 = true.
Proof. intros H. destruct b0; try discriminate H; first [now exists x80|now exists xa0]. Qed.

(** prefixes of a list that starts with these bytes *)
Lemma prefix_case (b0 : byte) r a b : b0 :: r = a ++ b -> a <> [] -> exists a', a = b0 :: a' /\ r = a' ++ b.
Proof. intros E N. destruct a as [|c a]; [contradiction|]. injection E as <- ->. now exists a. Qed.

Lemma error_some n : forall bs k k' l, (length bs <= n)%nat -> utf8_error k bs = Some (k', l) ->
  exists p q, bs = p ++ q /\ k' = k + zlen p /\ utf8_ok p = true /\ q <> [] /\ wrong q l.
Proof.
  induction n as [|n IH]; intros [|b0 r] k k' l L H; cbn in L; try lia; try discriminate. cbn [utf8_error] in H.
  assert (Here : forall e, Some (k, e) = Some (k', l) -> wrong (b0 :: r) e ->
    exists p q, b0 :: r = p ++ q /\ k' = k + zlen p /\ utf8_ok p = true /\ q <> [] /\ wrong q l).
  { intros e E W. injection E as <- <-. exists [], (b0 :: r). repeat (split; [first [reflexivity|cbn; lia|discriminate]|]). exact W. }
  assert (Next : forall c r', b0 :: r = c ++ r' -> c <> [] -> utf8_ok c = true -> utf8_error (k + zlen c) r' = Some (k', l) ->
    exists p q, b0 :: r = p ++ q /\ k' = k + zlen p /\ utf8_ok p = true /\ q <> [] /\ wrong q l).
  { intros c r' E N C K. assert (Lr : (length r' <= n)%nat).
    { apply (f_equal (@length byte)) in E. rewrite app_length in E. cbn in E. destruct c; [contradiction|]. cbn in E. lia. }
    destruct (IH r' _ _ _ Lr K) as (p & q & -> & -> & P & Q & W). exists (c ++ p), q. rewrite <- app_assoc. split; [exact E|].
    split; [rewrite zlen_app; lia|]. split; [now rewrite ok_after|]. now split. }
  destruct (Zb b0 <? 128) eqn:T1.
  { apply (Next [b0] r); trivial; [discriminate|]. cbn [utf8_ok]. now rewrite T1. }
  destruct (between 194 223 b0) eqn:T2.
  { destruct r as [|b1 r].
    - apply (Here _ H). split; [|split; [|split]].
      + intros a b E N. apply prefix_case in E as (a' & -> & E); trivial. destruct a'; [|discriminate]. cbn. now rewrite T1, T2.
      + intros _. exists [x80]. cbn. now rewrite T1, T2.
      + congruence.
      + discriminate.
    - destruct (cont b1) eqn:C1.
      + apply (Next [b0; b1] r); trivial; [discriminate|]. cbn [utf8_ok]. now rewrite T1, T2, C1.
      + apply (Here _ H). split; [|split; [|split]].
        * intros a b E N. apply prefix_case in E as (a' & -> & E); trivial. cbn [utf8_ok]. rewrite T1, T2. destruct a' as [|c a']; trivial.
          injection E as <- _. now rewrite C1.
        * discriminate.
        * intros _ x. cbn [app utf8_ok]. now rewrite T1, T2, C1.
        * intros j [= <-]. pose proof (zlen_nonneg r). rewrite !zlen_cons. lia. }
  destruct (between 224 239 b0) eqn:T3.
  { destruct r as [|b1 r].
    - apply (Here _ H). split; [|split; [|split]].
      + intros a b E N. apply prefix_case in E as (a' & -> & E); trivial. destruct a'; [|discriminate]. cbn. now rewrite T1, T2, T3.
      + intros _. destruct (more3 T3) as [b1 O]. exists [b1; x80]. cbn. now rewrite T1, T2, T3, O.
      + congruence.
      + discriminate.
    - destruct (ok3 b0 b1) eqn:O1.
      + destruct r as [|b2 r].
        * apply (Here _ H). split; [|split; [|split]].
          -- intros a b E N. apply prefix_case in E as (a' & -> & E); trivial. cbn [utf8_ok]. rewrite T1, T2, T3.
             destruct a' as [|c [|d a']]; trivial. discriminate.
          -- intros _. exists [x80]. cbn. now rewrite T1, T2, T3, O1.
          -- congruence.
          -- discriminate.
        * destruct (cont b2) eqn:C2.
          -- apply (Next [b0; b1; b2] r); trivial; [discriminate|]. cbn [utf8_ok]. now rewrite T1, T2, T3, O1, C2.
          -- apply (Here _ H). split; [|split; [|split]].
             ++ intros a b E N. apply prefix_case in E as (a' & -> & E); trivial. cbn [utf8_ok]. rewrite T1, T2, T3.
                destruct a' as [|c [|d a']]; trivial. injection E as <- <- _. now rewrite C2, andb_false_r.
             ++ discriminate.
             ++ intros _ x. cbn [app utf8_ok]. now rewrite T1, T2, T3, C2, andb_false_r.
             ++ intros j [= <-]. pose proof (zlen_nonneg r). rewrite !zlen_cons. lia.
      + apply (Here _ H). split; [|split; [|split]].
        * intros a b E N. apply prefix_case in E as (a' & -> & E); trivial. cbn [utf8_ok]. rewrite T1, T2, T3.
          destruct a' as [|c [|d a']]; trivial. injection E as <- _. now rewrite O1.
        * discriminate.
        * intros _ x. cbn [app utf8_ok]. rewrite T1, T2, T3, O1. now destruct (r ++ x).
        * intros j [= <-]. pose proof (zlen_nonneg r). rewrite !zlen_cons. lia. }
  destruct (between 240 244 b0) eqn:T4.
  { destruct r as [|b1 r].
    - apply (Here _ H). split; [|split; [|split]].
      + intros a b E N. apply prefix_case in E as (a' & -> & E); trivial. destruct a'; [|discriminate]. cbn. now rewrite T1, T2, T3, T4.
      + intros _. destruct (more4 T4) as [b1 O]. exists [b1; x80; x80]. cbn. now rewrite T1, T2, T3, T4, O.
      + congruence.
      + discriminate.
    - destruct (ok4 b0 b1) eqn:O1.
      + destruct r as [|b2 r].
        * apply (Here _ H). split; [|split; [|split]].
          -- intros a b E N. apply prefix_case in E as (a' & -> & E); trivial. cbn [utf8_ok]. rewrite T1, T2, T3, T4.
             destruct a' as [|c [|d a']]; trivial. discriminate.
          -- intros _. exists [x80; x80]. cbn. now rewrite T1, T2, T3, T4, O1.
          -- congruence.
          -- discriminate.
        * destruct (cont b2) eqn:C2.
          -- destruct r as [|b3 r].
             ++ apply (Here _ H). split; [|split; [|split]].
                ** intros a b E N. apply prefix_case in E as (a' & -> & E); trivial. cbn [utf8_ok]. rewrite T1, T2, T3, T4.
                   destruct a' as [|c [|d [|e a']]]; trivial. discriminate.
                ** intros _. exists [x80]. cbn. now rewrite T1, T2, T3, T4, O1, C2.
                ** congruence.
                ** discriminate.
             ++ destruct (cont b3) eqn:C3.
                ** apply (Next [b0; b1; b2; b3] r); trivial; [discriminate|]. cbn [utf8_ok]. now rewrite T1, T2, T3, T4, O1, C2, C3.
                ** apply (Here _ H). split; [|split; [|split]].
                   --- intros a b E N. apply prefix_case in E as (a' & -> & E); trivial. cbn [utf8_ok]. rewrite T1, T2, T3, T4.
                       destruct a' as [|c [|d [|e a']]]; trivial. injection E as <- <- <- _. now rewrite C3, andb_false_r.
                   --- discriminate.
                   --- intros _ x. cbn [app utf8_ok]. now rewrite T1, T2, T3, T4, C3, andb_false_r.
                   --- intros j [= <-]. pose proof (zlen_nonneg r). rewrite !zlen_cons. lia.
          -- apply (Here _ H). split; [|split; [|split]].
             ++ intros a b E N. apply prefix_case in E as (a' & -> & E); trivial. cbn [utf8_ok]. rewrite T1, T2, T3, T4.
                destruct a' as [|c [|d [|e a']]]; trivial. injection E as <- <- _. now rewrite C2, andb_false_r.
             ++ discriminate.
             ++ intros _ x. cbn [app utf8_ok]. rewrite T1, T2, T3, T4, C2, andb_false_r. now destruct (r ++ x).
             ++ intros j [= <-]. pose proof (zlen_nonneg r). rewrite !zlen_cons. lia.
      + apply (Here _ H). split; [|split; [|split]].
        * intros a b E N. apply prefix_case in E as (a' & -> & E); trivial. cbn [utf8_ok]. rewrite T1, T2, T3, T4.
          destruct a' as [|c [|d [|e a']]]; trivial. injection E as <- _. now rewrite O1.
        * discriminate.
        * intros _ x. cbn [app utf8_ok]. rewrite T1, T2, T3, T4, O1. now destruct (r ++ x) as [|? [|? ?]].
        * intros j [= <-]. pose proof (zlen_nonneg r). rewrite !zlen_cons. lia. }
  apply (Here _ H). split; [|split; [|split]].
  - intros a b E N. apply prefix_case in E as (a' & -> & E); trivial. cbn [utf8_ok]. now rewrite T1, T2, T3, T4.
  - discriminate.
  - intros _ x. cbn [app utf8_ok]. now rewrite T1, T2, T3, T4.
  - intros j [= <-]. pose proof (zlen_nonneg r). rewrite zlen_cons. lia.
Qed.

Lemma string_error_read i : read_string i = Err EEncoding <-> string_error i <> None.
Proof.
  unfold read_string, string_error. destruct (read_u32 i) as [[size j]|e| | |] eqn:R; cbn [bind].
  2:{ split; [|congruence]. intros [= ->]. exfalso. unfold read_u32, read in R. destruct (zlen i <? 4); cbn [bind] in R; discriminate R. }
  2-4: split; congruence.
  destruct (read size j) as [[v k]|e| | |] eqn:R2; cbn [bind].
  2:{ split; [|congruence]. intros [= ->]. exfalso. unfold read in R2. destruct (zlen j <? size); cbn [bind] in R2; discriminate R2. }
  2-4: split; congruence.
  pose proof (error_none 0 v) as N. destruct (utf8_ok v) eqn:K.
  - split; [|intros H; destruct H; now apply N].
    intros H. exfalso. destruct (4 - size mod 4 <? 4); [|discriminate]. unfold slice_from in H.
    destruct (zlen k <? 4 - size mod 4); cbn [bind] in H; discriminate H.
  - split; [|reflexivity]. intros _ E. apply N in E. discriminate.
Qed.
Lemma encoding_detail E n s r : unsigned 4 (zlen s) n -> ~ valid_utf8 s ->
  returns (fun k => from_bytes k E TStr (n ++ s ++ r)) (Err EEncoding) /\
  exists p q l, string_error (n ++ s ++ r) = Some (zlen p, l) /\ s = p ++ q /\ valid_utf8 p /\
    (forall a b, q = a ++ b -> a <> [] -> ~ valid_utf8 (p ++ a)) /\
    (l = None <-> exists x, valid_utf8 (s ++ x)) /\
    (forall j, l = Some j -> 1 <= j <= 3 /\ j <= zlen q).
Proof.
  intros U V. split; [now apply c14_invalid|]. unfold string_error. rewrite (read_u32_app _ U), read_app by reflexivity.
  destruct (utf8_error 0 s) as [[k l]|] eqn:H; [|apply error_none, utf8_ok_spec in H; contradiction].
  destruct (@error_some (length s) s 0 k l (le_n _) H) as (p & q & -> & -> & P & _ & W1 & W2 & W3 & W4). exists p, q, l.
  split; [reflexivity|]. split; [reflexivity|]. split; [now apply utf8_ok_spec|]. split.
  - intros a b -> N A. apply utf8_ok_spec in A. rewrite ok_after in A by exact P. rewrite (W1 a b eq_refl N) in A. discriminate.
  - split; [|exact W4]. split.
    + intros ->. destruct (W2 eq_refl) as [x X]. exists x. apply utf8_ok_spec. rewrite <- app_assoc, ok_after by exact P. exact X.
    + intros [x X]. apply utf8_ok_spec in X. rewrite <- app_assoc, ok_after in X by exact P. destruct l; trivial.
      rewrite W3 in X by discriminate. discriminate.
Qed.
