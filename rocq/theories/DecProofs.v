(** The deserializer accepts exactly what SpecDecode.v says. *)
From Verif Require Import Base SpecUtf8 Utf8 Utf8Proofs SerModel RustTypes DeModel
  SpecXdr SpecTypes SpecDecode XdrFacts ReadFacts RvalFacts.
Set Implicit Arguments.

(** ** Words *)

Lemma read_u32_app z w r : unsigned 4 z w -> read_u32 (w ++ r) = Ok (z, r).
Proof.
  intros [L V]. unfold read_u32. rewrite read_app by (unfold zlen; lia). cbn [bind].
  now rewrite <- nval_be_val, V.
Qed.

Lemma read_u64_app z w r : unsigned 8 z w -> read_u64 (w ++ r) = Ok (z, r).
Proof.
  intros [L V]. unfold read_u64. rewrite read_app by (unfold zlen; lia). cbn [bind].
  now rewrite <- nval_be_val, V.
Qed.

Lemma read_i32_app z w r : signed 4 z w -> read_i32 (w ++ r) = Ok (z, r).
Proof.
  intros H. unfold read_i32. pose proof (proj1 H) as L.
  rewrite read_app by (unfold zlen; lia). cbn [bind].
  rewrite <- nval_be_val. rewrite (signed_val (k := 4) ltac:(lia) H). reflexivity.
Qed.

Lemma read_i64_app z w r : signed 8 z w -> read_i64 (w ++ r) = Ok (z, r).
Proof.
  intros H. unfold read_i64. pose proof (proj1 H) as L.
  rewrite read_app by (unfold zlen; lia). cbn [bind].
  rewrite <- nval_be_val. rewrite (signed_val (k := 8) ltac:(lia) H). reflexivity.
Qed.

Lemma read_u32_inv i z r : read_u32 i = Ok (z, r) -> exists w, i = w ++ r /\ unsigned 4 z w.
Proof.
  unfold read_u32. intros H. apply bind_ok in H as ([w r'] & H & E). injection E as <- <-.
  apply read_inv in H as [-> L]; [|lia]. exists w. split; [reflexivity|].
  split; [unfold zlen in L; lia|apply nval_be_val].
Qed.

Lemma read_u64_inv i z r : read_u64 i = Ok (z, r) -> exists w, i = w ++ r /\ unsigned 8 z w.
Proof.
  unfold read_u64. intros H. apply bind_ok in H as ([w r'] & H & E). injection E as <- <-.
  apply read_inv in H as [-> L]; [|lia]. exists w. split; [reflexivity|].
  split; [unfold zlen in L; lia|apply nval_be_val].
Qed.

Lemma read_i32_inv i z r : read_i32 i = Ok (z, r) -> exists w, i = w ++ r /\ signed 4 z w.
Proof.
  unfold read_i32. intros H. apply bind_ok in H as ([w r'] & H & E). injection E as <- <-.
  apply read_inv in H as [-> L]; [|lia]. exists w. split; [reflexivity|].
  rewrite <- nval_be_val. apply (@signed_wrap 4); [lia|unfold zlen in L; lia].
Qed.

Lemma read_i64_inv i z r : read_i64 i = Ok (z, r) -> exists w, i = w ++ r /\ signed 8 z w.
Proof.
  unfold read_i64. intros H. apply bind_ok in H as ([w r'] & H & E). injection E as <- <-.
  apply read_inv in H as [-> L]; [|lia]. exists w. split; [reflexivity|].
  rewrite <- nval_be_val. apply (@signed_wrap 8); [lia|unfold zlen in L; lia].
Qed.

Lemma unsigned_signed k z w : (0 < k)%nat -> unsigned k z w -> z < 2 ^ (8 * Z.of_nat k - 1) ->
  signed k z w.
Proof.
  intros Hk H L. pose proof (unsigned_range H). destruct H as [L' V].
  split; [exact L'|]. left. split; [lia|exact V].
Qed.

Lemma signed_unsigned k z w : signed k z w -> 0 <= z -> unsigned k z w.
Proof. intros [L H] Hz. split; [exact L|]. lia. Qed.

(** ** Integers *)

Lemma mod_eq_sub a b m : 0 < m -> (a - b) mod m = 0 -> a mod m = b mod m.
Proof.
  intros Hm H. apply Z.mod_divide in H; [|lia]. destruct H as [q Hq].
  replace a with (b + q * m) by lia. apply Z.mod_add. lia.
Qed.

Lemma sub_mod_eq a b m : 0 < m -> a mod m = b mod m -> (a - b) mod m = 0.
Proof.
  intros Hm H. rewrite Zminus_mod, H, Z.sub_diag. apply Z.mod_0_l. lia.
Qed.

Lemma wrap_s_cong w a b : a mod 2 ^ w = b mod 2 ^ w -> wrap_s w a = wrap_s w b.
Proof. unfold wrap_s. now intros ->. Qed.

Lemma wrap_s_mod w z : 0 < w -> (wrap_s w z - z) mod 2 ^ w = 0.
Proof.
  intros Hw. assert (0 < 2 ^ w) by (apply Z.pow_pos_nonneg; lia).
  apply sub_mod_eq; [lia|]. unfold wrap_s.
  destruct (z mod 2 ^ w <? 2 ^ (w - 1)).
  - apply Z.mod_mod; lia.
  - replace (z mod 2 ^ w - 2 ^ w) with (z mod 2 ^ w + (-1) * 2 ^ w) by lia.
    rewrite Z.mod_add, Z.mod_mod; lia.
Qed.

Lemma wrap_s_bounds w z : 0 < w -> - 2 ^ (w - 1) <= wrap_s w z < 2 ^ (w - 1).
Proof. intros H. pose proof (wrap_s_range z H) as R. unfold in_s in R. lia. Qed.

Lemma wrap_u_bounds w z : 0 <= w -> 0 <= wrap_u w z < 2 ^ w.
Proof. intros H. pose proof (wrap_u_range z H) as R. unfold in_u in R. lia. Qed.

Lemma wrap_u_mod w z : 0 <= w -> (wrap_u w z - z) mod 2 ^ w = 0.
Proof.
  intros Hw. assert (0 < 2 ^ w) by (apply Z.pow_pos_nonneg; lia).
  apply sub_mod_eq; [lia|]. unfold wrap_u. apply Z.mod_mod; lia.
Qed.

Lemma wrap_s_wrap_s w w' z : 0 < w <= w' -> wrap_s w (wrap_s w' z) = wrap_s w z.
Proof.
  intros H. apply wrap_s_cong.
  assert (0 < 2 ^ w) by (apply Z.pow_pos_nonneg; lia).
  pose proof (@wrap_s_mod w' z ltac:(lia)) as M.
  apply mod_eq_sub; [lia|].
  apply Z.mod_divide in M; [|lia]. destruct M as [q Hq]. rewrite Hq.
  replace (2 ^ w') with (2 ^ (w' - w) * 2 ^ w) by (rewrite <- Z.pow_add_r by lia; f_equal; lia).
  rewrite Z.mul_assoc. apply Z.mod_mul. lia.
Qed.

Lemma int_unique (s : bool) w z z' : int_range s w z -> (z - z') mod 2 ^ bits w = 0 ->
  z = if s then wrap_s (bits w) z' else wrap_u (bits w) z'.
Proof.
  intros R M.
  assert (B : 0 < bits w) by (destruct w; cbn; lia).
  assert (0 < 2 ^ bits w) by (apply Z.pow_pos_nonneg; lia).
  apply mod_eq_sub in M; [|lia].
  destruct s; cbn [int_range] in R.
  - rewrite <- (@wrap_s_cong (bits w) z z') by exact M. symmetry. apply wrap_s_id; [lia|].
    unfold in_s. lia.
  - unfold wrap_u. rewrite <- M. symmetry. apply Z.mod_small. exact R.
Qed.

Lemma de_int_app s w z z' word r : w <> W128 -> unsigned (int_bytes w) z' word ->
  int_range s w z -> (z - z') mod 2 ^ bits w = 0 ->
  de_int s w (word ++ r) = Ok (z, r).
Proof.
  intros Hw U R M. rewrite (@int_unique s w z z' R M). clear R M z.
  assert (L : length word = int_bytes w) by apply U.
  assert (V : nval word = z') by apply U.
  assert (S4 : length word = 4%nat -> signed 4 (wrap_s 32 z') word).
  { intros L4. rewrite <- V. apply (@signed_wrap 4); [lia|exact L4]. }
  assert (S8 : length word = 8%nat -> signed 8 (wrap_s 64 z') word).
  { intros L8. rewrite <- V. apply (@signed_wrap 8); [lia|exact L8]. }
  destruct s, w; try congruence; cbn [int_bytes] in *; unfold de_int;
    rewrite ?(read_i32_app r (S4 L)), ?(read_i64_app r (S8 L)), ?(read_u32_app r U),
      ?(read_u64_app r U); cbn [bind bits]; rewrite ?wrap_s_wrap_s by lia; try reflexivity.
  - rewrite wrap_u_id; [reflexivity|]. apply unsigned_range in U. unfold in_u. cbn in *. lia.
  - rewrite wrap_u_id; [reflexivity|]. apply unsigned_range in U. unfold in_u. cbn in *. lia.
Qed.

Lemma de_int_inv s w i z r : de_int s w i = Ok (z, r) ->
  w <> W128 /\ exists word z', i = word ++ r /\ unsigned (int_bytes w) z' word /\
    int_range s w z /\ (z - z') mod 2 ^ bits w = 0.
Proof.
  assert (SU : forall k zz ww, (0 < k)%nat -> signed k zz ww ->
            unsigned k (nval ww) ww /\ (zz - nval ww) mod 2 ^ (8 * Z.of_nat k) = 0).
  { intros k zz ww Hk [L H]. split; [split; auto|].
    destruct H as [[_ ->]|[_ ->]].
    - rewrite Z.sub_diag. apply Z.mod_0_l. apply Z.pow_nonzero; lia.
    - replace (zz - (zz + 2 ^ (8 * Z.of_nat k))) with ((-1) * 2 ^ (8 * Z.of_nat k)) by lia.
      apply Z.mod_mul. apply Z.pow_nonzero; lia. }
  assert (DIV : forall a b w', (a - b) mod 2 ^ 32 = 0 -> 0 < w' <= 32 ->
            (wrap_s w' a - b) mod 2 ^ w' = 0).
  { intros a b w' M Hw'. assert (0 < 2 ^ w') by (apply Z.pow_pos_nonneg; lia).
    pose proof (@wrap_s_mod w' a ltac:(lia)) as M2.
    apply Z.mod_divide in M; [|lia]. apply Z.mod_divide in M2; [|lia].
    apply Z.mod_divide; [lia|].
    replace (wrap_s w' a - b) with ((wrap_s w' a - a) + (a - b)) by lia.
    apply Z.divide_add_r; [exact M2|].
    eapply Z.divide_trans; [|exact M].
    exists (2 ^ (32 - w')). rewrite <- Z.pow_add_r by lia. f_equal. lia. }
  intros H. destruct s, w; unfold de_int in H; try discriminate H;
    (split; [discriminate|]).
  - apply bind_ok in H as ([a r'] & H & E). injection E as <- <-.
    apply read_i32_inv in H as (word & -> & Hs). destruct (SU 4%nat _ _ ltac:(lia) Hs).
    exists word, (nval word). split; [reflexivity|]. split; [assumption|].
    split; [apply wrap_s_bounds; cbn; lia|]. cbn [bits]. apply DIV; [assumption|lia].
  - apply bind_ok in H as ([a r'] & H & E). injection E as <- <-.
    apply read_i32_inv in H as (word & -> & Hs). destruct (SU 4%nat _ _ ltac:(lia) Hs).
    exists word, (nval word). split; [reflexivity|]. split; [assumption|].
    split; [apply wrap_s_bounds; cbn; lia|]. cbn [bits]. apply DIV; [assumption|lia].
  - apply read_i32_inv in H as (word & -> & Hs). destruct (SU 4%nat _ _ ltac:(lia) Hs).
    exists word, (nval word). split; [reflexivity|]. split; [assumption|].
    split; [|assumption]. apply (signed_range (k := 4)) in Hs; [|lia]. exact Hs.
  - apply read_i64_inv in H as (word & -> & Hs). destruct (SU 8%nat _ _ ltac:(lia) Hs).
    exists word, (nval word). split; [reflexivity|]. split; [assumption|].
    split; [|assumption]. apply (signed_range (k := 8)) in Hs; [|lia]. exact Hs.
  - apply bind_ok in H as ([a r'] & H & E). injection E as <- <-.
    apply read_u32_inv in H as (word & -> & Hs).
    exists word, a. split; [reflexivity|]. split; [exact Hs|].
    split; [apply wrap_u_bounds; cbn; lia|apply wrap_u_mod; cbn; lia].
  - apply bind_ok in H as ([a r'] & H & E). injection E as <- <-.
    apply read_u32_inv in H as (word & -> & Hs).
    exists word, a. split; [reflexivity|]. split; [exact Hs|].
    split; [apply wrap_u_bounds; cbn; lia|apply wrap_u_mod; cbn; lia].
  - apply read_u32_inv in H as (word & -> & Hs).
    exists word, z. split; [reflexivity|]. split; [exact Hs|].
    split; [apply unsigned_range in Hs; exact Hs|]. now rewrite Z.sub_diag.
  - apply read_u64_inv in H as (word & -> & Hs).
    exists word, z. split; [reflexivity|]. split; [exact Hs|].
    split; [apply unsigned_range in Hs; exact Hs|]. now rewrite Z.sub_diag.
Qed.

(** ** Strings and bytes *)

Lemma slice_pad p r : slice_from (zlen p) (p ++ r) = Ok r.
Proof.
  unfold slice_from. rewrite zlen_app. pose proof (zlen_nonneg r).
  destruct (Z.ltb_spec (zlen p + zlen r) (zlen p)); [lia|].
  unfold zlen. rewrite Nat2Z.id, skipn_app, skipn_all, Nat.sub_diag. reflexivity.
Qed.

Lemma any_pad_cases len p : 0 <= len -> any_pad len p ->
  (4 - len mod 4 <? 4) = true /\ zlen p = 4 - len mod 4 \/
  (4 - len mod 4 <? 4) = false /\ p = [].
Proof.
  intros Hl [M L]. pose proof (zlen_nonneg p).
  destruct (Z.ltb_spec (4 - len mod 4) 4); [left|right]; (split; [reflexivity|]).
  - lia.
  - destruct p; [reflexivity|]. rewrite zlen_cons in *. pose proof (zlen_nonneg p). lia.
Qed.

Lemma read_bytes_app n bs p r : unsigned 4 (zlen bs) n -> any_pad (zlen bs) p ->
  read_bytes (n ++ bs ++ p ++ r) = Ok (bs, r).
Proof.
  intros U P. unfold read_bytes. rewrite (read_u32_app _ U). cbn [bind].
  rewrite read_app by reflexivity. cbn [bind].
  destruct (any_pad_cases (zlen_nonneg bs) P) as [[-> E]|[-> ->]]; [|reflexivity].
  rewrite <- E, slice_pad. reflexivity.
Qed.

Lemma read_string_app n bs p r : unsigned 4 (zlen bs) n -> any_pad (zlen bs) p ->
  valid_utf8 bs -> read_string (n ++ bs ++ p ++ r) = Ok (bs, r).
Proof.
  intros U P V. unfold read_string. rewrite (read_u32_app _ U). cbn [bind].
  rewrite read_app by reflexivity. cbn [bind].
  apply utf8_ok_spec in V. rewrite V.
  destruct (any_pad_cases (zlen_nonneg bs) P) as [[-> E]|[-> ->]]; [|reflexivity].
  rewrite <- E, slice_pad. reflexivity.
Qed.

Lemma slice_from_inv n i r : 0 <= n -> slice_from n i = Ok r ->
  exists p, i = p ++ r /\ zlen p = n.
Proof.
  intros Hn. unfold slice_from. destruct (Z.ltb_spec (zlen i) n); [discriminate|].
  intros E; injection E as <-. exists (firstn (Z.to_nat n) i).
  split; [now rewrite firstn_skipn|]. unfold zlen in *. rewrite firstn_length. lia.
Qed.

Lemma pad_inv size i r : 0 <= size ->
  (if 4 - size mod 4 <? 4 then slice_from (4 - size mod 4) i else Ok i) = Ok r ->
  exists p, i = p ++ r /\ any_pad size p.
Proof.
  intros Hs. destruct (Z.ltb_spec (4 - size mod 4) 4); intros H1.
  - apply slice_from_inv in H1 as (p & -> & Hp); [|lia]. exists p. split; [reflexivity|].
    unfold any_pad. lia.
  - injection H1 as ->. exists []. split; [reflexivity|]. unfold any_pad, zlen. cbn. lia.
Qed.

Lemma read_bytes_inv i bs r : read_bytes i = Ok (bs, r) ->
  exists n p, i = n ++ bs ++ p ++ r /\ unsigned 4 (zlen bs) n /\ any_pad (zlen bs) p.
Proof.
  unfold read_bytes. intros H. apply bind_ok in H as ([size i1] & H1 & H).
  apply read_u32_inv in H1 as (n & -> & U).
  apply bind_ok in H as ([v i2] & H2 & H).
  pose proof (unsigned_range U). apply read_inv in H2 as [-> L]; [|lia].
  assert (v = bs /\ (if 4 - size mod 4 <? 4 then slice_from (4 - size mod 4) i2 else Ok i2) = Ok r)
    as [-> HP].
  { destruct (4 - size mod 4 <? 4); [|injection H as <- <-; auto].
    apply bind_ok in H as (i3 & H3 & E). injection E as <- <-. auto. }
  apply pad_inv in HP as (p & -> & P); [|lia].
  exists n, p. subst size. auto.
Qed.

Lemma read_string_inv i bs r : read_string i = Ok (bs, r) ->
  exists n p, i = n ++ bs ++ p ++ r /\ unsigned 4 (zlen bs) n /\ any_pad (zlen bs) p
    /\ valid_utf8 bs.
Proof.
  unfold read_string. intros H. apply bind_ok in H as ([size i1] & H1 & H).
  apply read_u32_inv in H1 as (n & -> & U).
  apply bind_ok in H as ([v i2] & H2 & H).
  pose proof (unsigned_range U). apply read_inv in H2 as [-> L]; [|lia].
  destruct (utf8_ok v) eqn:V; [|discriminate].
  assert (v = bs /\ (if 4 - size mod 4 <? 4 then slice_from (4 - size mod 4) i2 else Ok i2) = Ok r)
    as [-> HP].
  { destruct (4 - size mod 4 <? 4); [|injection H as <- <-; auto].
    apply bind_ok in H as (i3 & H3 & E). injection E as <- <-. auto. }
  apply pad_inv in HP as (p & -> & P); [|lia].
  exists n, p. subst size. apply utf8_ok_spec in V. auto.
Qed.

(** ** Members read one after the other *)

Inductive chain {A} : list (parser A) -> list A -> list byte -> Prop :=
| chain_nil : chain [] [] []
| chain_cons p ps a l b bs : (forall r, p (b ++ r) = Ok (a, r)) -> chain ps l bs ->
    chain (p :: ps) (a :: l) (b ++ bs).

Lemma chain_read_seq {A} (ps : list (parser A)) l bs r : chain ps l bs ->
  read_seq ps (bs ++ r) = Ok (l, r).
Proof.
  intros H. revert r. induction H as [|p ps a l b bs Hp _ IH]; intros r; cbn; [reflexivity|].
  rewrite <- app_assoc, Hp. cbn. rewrite IH. reflexivity.
Qed.

Lemma chain_length {A} (ps : list (parser A)) l bs : chain ps l bs -> length ps = length l.
Proof. induction 1; cbn; auto. Qed.

Lemma map_repeat {A B} (f : A -> B) x k : map f (repeat x k) = repeat (f x) k.
Proof. induction k; cbn; congruence. Qed.

Lemma chain_pairs (kp vp : parser rval) (kvs : list (rval * rval)) bs :
  chain (flat_map (fun _ => [kp; vp]) kvs) (flat_map (fun '(k, v) => [k; v]) kvs) bs ->
  chain (repeat (fun i => '(k, i) <- kp i;; '(v, i) <- vp i;; Ok ((k, v), i)) (length kvs)) kvs bs.
Proof.
  revert bs. induction kvs as [|[k v] kvs IH]; intros bs H; cbn in *.
  - inversion H; constructor.
  - inversion H as [|p1 ps1 a1 l1 b1 bs1 Hk H1]; subst.
    inversion H1 as [|p2 ps2 a2 l2 b2 bs2 Hv H2]; subst.
    rewrite app_assoc. constructor; [|now apply IH].
    intros r. rewrite <- app_assoc, Hk. cbn. rewrite Hv. reflexivity.
Qed.

Lemma map_flat_map {A B C} (f : B -> C) (g : A -> list B) l :
  map f (flat_map g l) = flat_map (fun x => map f (g x)) l.
Proof. induction l; cbn; [reflexivity|]. now rewrite map_app, IHl. Qed.

Lemma accepts_all_length E ts vs bs : accepts_all E ts vs bs -> length vs = length ts.
Proof. induction 1; cbn; auto. Qed.

Definition dec_ok (E : env) (t : ty) (v : rval) (bs : list byte) : Prop :=
  exists N, forall n, (N <= n)%nat -> forall r, deser n E t (bs ++ r) = Ok (v, r).
Definition decs_ok (E : env) (ts : list ty) (vs : list rval) (bs : list byte) : Prop :=
  exists N, forall n, (N <= n)%nat -> chain (map (deser n E) ts) vs bs.

Ltac fuel1 N := exists N; intros [|fl] Hn r; [lia|]; cbn [deser]; rewrite <- ?app_assoc.

Lemma dec_main E :
  (forall t v bs, accepts E t v bs -> dec_ok E t v bs) /\
  (forall ts vs bs, accepts_all E ts vs bs -> decs_ok E ts vs bs).
Proof.
  apply accepts_accepts_all_ind; intros; unfold dec_ok, decs_ok in *;
    repeat match goal with H : exists _, _ |- _ => destruct H end.
  - fuel1 1%nat. rewrite (read_u32_app r H). reflexivity.
  - fuel1 1%nat. rewrite (read_u32_app r H). cbn [bind].
    destruct (Z.eqb_spec z 0); [contradiction|reflexivity].
  - fuel1 1%nat. rewrite (@de_int_app s w z z' word r) by assumption. reflexivity.
  - fuel1 1%nat. change read_f32 with read_u32. rewrite (read_u32_app r H). reflexivity.
  - fuel1 1%nat. change read_f64 with read_u64. rewrite (read_u64_app r H). reflexivity.
  - fuel1 1%nat. unfold read_char. rewrite (read_u32_app r H). cbn [bind].
    apply char_ok_spec in H0. rewrite H0. reflexivity.
  - fuel1 1%nat. rewrite (@read_string_app n bs p r) by assumption. reflexivity.
  - fuel1 1%nat. rewrite (@read_bytes_app n bs p r) by assumption. reflexivity.
  - fuel1 1%nat. rewrite (read_u32_app r H). reflexivity.
  - fuel1 (S x). rewrite (read_u32_app _ H). cbn [bind].
    destruct (Z.eqb_spec z 0); [contradiction|]. rewrite H2 by lia. reflexivity.
  - fuel1 1%nat. reflexivity.
  - fuel1 1%nat. reflexivity.
  - fuel1 (S x). apply H0. lia.
  - fuel1 (S x). apply H0. lia.
  - (* seq *)
    fuel1 (S x). rewrite (read_u32_app _ H). cbn [bind].
    unfold zlen. rewrite visit_vec_seq. specialize (H1 fl ltac:(lia)). rewrite map_repeat in H1.
    rewrite (chain_read_seq r H1). reflexivity.
  - (* array *)
    fuel1 (S x). specialize (H0 fl ltac:(lia)). rewrite map_repeat in H0.
    rewrite visit_fields_seq by (unfold zlen; rewrite repeat_length; lia).
    rewrite (chain_read_seq r H0). reflexivity.
  - (* tuple *)
    fuel1 (S x). specialize (H0 fl ltac:(lia)).
    rewrite visit_fields_seq by (unfold zlen; rewrite map_length; lia).
    rewrite (chain_read_seq r H0). reflexivity.
  - (* tuple struct *)
    fuel1 (S x). specialize (H0 fl ltac:(lia)).
    rewrite visit_fields_seq by (unfold zlen; rewrite map_length; lia).
    rewrite (chain_read_seq r H0). reflexivity.
  - (* struct *)
    fuel1 (S x). specialize (H0 fl ltac:(lia)). rewrite map_map in H0.
    rewrite visit_fields_seq by (unfold zlen; rewrite map_length; lia).
    rewrite (chain_read_seq r H0). reflexivity.
  - (* map *)
    fuel1 (S x). rewrite (read_u32_app _ H). cbn [bind].
    specialize (H1 fl ltac:(lia)). rewrite map_flat_map in H1. cbn [map] in H1.
    apply chain_pairs in H1. unfold zlen. rewrite visit_map_seq.
    rewrite (chain_read_seq r H1). cbn [bind].
    change (fold_left _ kvs []) with (map_of kvs). now rewrite (last_wins_map_of H2).
  - (* unit variant *)
    fuel1 1%nat. unfold de_variant_index.
    assert (signed 4 (Z.of_nat i) w) as Hs by (apply unsigned_signed; [lia|assumption|cbn; lia]).
    rewrite (read_i32_app r Hs). cbn [bind].
    assert (i < length vss)%nat by (apply nth_error_Some; congruence).
    destruct (Z.ltb_spec (Z.of_nat i) 0); [lia|].
    destruct (Z.ltb_spec (Z.of_nat i) (Z.of_nat (length vss))); [|lia].
    cbn [bind]. rewrite Nat2Z.id, H1. reflexivity.
  - (* newtype variant *)
    fuel1 (S x). unfold de_variant_index.
    assert (signed 4 (Z.of_nat i) w) as Hs by (apply unsigned_signed; [lia|assumption|cbn; lia]).
    rewrite (read_i32_app _ Hs). cbn [bind].
    assert (i < length vss)%nat by (apply nth_error_Some; congruence).
    destruct (Z.ltb_spec (Z.of_nat i) 0); [lia|].
    destruct (Z.ltb_spec (Z.of_nat i) (Z.of_nat (length vss))); [|lia].
    cbn [bind]. rewrite Nat2Z.id, H1. rewrite H3 by lia. reflexivity.
  - (* tuple variant *)
    fuel1 (S x). unfold de_variant_index.
    assert (signed 4 (Z.of_nat i) w) as Hs by (apply unsigned_signed; [lia|assumption|cbn; lia]).
    rewrite (read_i32_app _ Hs). cbn [bind].
    assert (i < length vss)%nat by (apply nth_error_Some; congruence).
    destruct (Z.ltb_spec (Z.of_nat i) 0); [lia|].
    destruct (Z.ltb_spec (Z.of_nat i) (Z.of_nat (length vss))); [|lia].
    cbn [bind]. rewrite Nat2Z.id, H1. specialize (H3 fl ltac:(lia)).
    rewrite visit_fields_seq by (unfold zlen; rewrite map_length; lia).
    rewrite (chain_read_seq r H3). reflexivity.
  - (* struct variant *)
    fuel1 (S x). unfold de_variant_index.
    assert (signed 4 (Z.of_nat i) w) as Hs by (apply unsigned_signed; [lia|assumption|cbn; lia]).
    rewrite (read_i32_app _ Hs). cbn [bind].
    assert (i < length vss)%nat by (apply nth_error_Some; congruence).
    destruct (Z.ltb_spec (Z.of_nat i) 0); [lia|].
    destruct (Z.ltb_spec (Z.of_nat i) (Z.of_nat (length vss))); [|lia].
    cbn [bind]. rewrite Nat2Z.id, H1. specialize (H3 fl ltac:(lia)). rewrite map_map in H3.
    rewrite visit_fields_seq by (unfold zlen; rewrite map_length; lia).
    rewrite (chain_read_seq r H3). reflexivity.
  - (* fixed opaque *)
    fuel1 1%nat. unfold de_opaque_fixed. destruct H0 as [M L].
    rewrite (@enumerate_u8_ok bs p r (Z.of_nat k)) by (unfold zlen in *; (lia || assumption)).
    cbn [bind]. rewrite H, Nat.eqb_refl. reflexivity.
  - (* variable opaque *)
    fuel1 1%nat. unfold de_opaque_variable. destruct H0 as [M L].
    rewrite (read_u32_app _ H). cbn [bind].
    rewrite (@enumerate_u8_ok bs p r (zlen bs)) by (reflexivity || assumption). reflexivity.
  - (* signed32 *)
    fuel1 1%nat. rewrite (read_i32_app _ H). cbn [bind]. rewrite H0. reflexivity.
  - (* indexer *)
    fuel1 (S x). unfold next_element. cbn [Z.eqb]. rewrite (read_i32_app _ H). cbn [bind].
    rewrite H0.
    assert (find_variant name vss 0 = Some (i, ts)) as -> by (apply find_variant_spec; exists i; auto).
    specialize (H5 fl ltac:(lia)).
    rewrite visit_fields_unwrap_seq by (unfold zlen; rewrite map_length; lia).
    rewrite (chain_read_seq r H5). reflexivity.
  - (* union, unit *)
    fuel1 (S x). unfold next_element. cbn [Z.eqb]. rewrite H0 by lia. cbn [bind].
    rewrite H1.
    assert (find_variant name vss 0 = Some (i, None)) as -> by (apply find_variant_spec; exists i; auto).
    reflexivity.
  - (* union *)
    fuel1 (S (Nat.max x x0)). unfold next_element. cbn [Z.eqb].
    match goal with A : forall n, _ -> forall r, deser n E disc _ = _ |- _ =>
      rewrite A by lia end. cbn [bind].
    rewrite H1.
    assert (find_variant name vss 0 = Some (i, Some ts)) as -> by (apply find_variant_spec; exists i; auto).
    match goal with A : forall n, _ -> chain _ _ _ |- _ => specialize (A fl ltac:(lia)) as C end.
    rewrite visit_fields_unwrap_seq by (unfold zlen; rewrite map_length; lia).
    rewrite (chain_read_seq r C). reflexivity.
  - (* ref *)
    fuel1 (S x0). rewrite H. apply H1. lia.
  - exists 0%nat. intros; constructor.
  - exists (Nat.max x x0). intros n Hn. cbn [map]. constructor.
    + intros r. match goal with A : forall n, _ -> forall r, deser _ _ _ _ = _ |- _ => apply A end. lia.
    + match goal with A : forall n, _ -> chain _ _ _ |- _ => apply A end. lia.
Qed.

(** ** The converse *)

Lemma read_seq_accepts n E (IH : forall t i v r, deser n E t i = Ok (v, r) ->
    exists c, i = c ++ r /\ accepts E t v c) ts : forall i vs r,
  read_seq (map (deser n E) ts) i = Ok (vs, r) ->
  exists c, i = c ++ r /\ accepts_all E ts vs c.
Proof.
  induction ts as [|t ts IHts]; intros i vs r H; cbn in H.
  - injection H as <- <-. exists []. split; [reflexivity|constructor].
  - apply bind_ok in H as ([v i1] & H1 & H). apply bind_ok in H as ([l i2] & H2 & H).
    injection H as <- <-. apply IH in H1 as (c1 & -> & A1).
    apply IHts in H2 as (c2 & -> & A2).
    exists (c1 ++ c2). split; [now rewrite app_assoc|now constructor].
Qed.

Lemma read_seq_pairs n E (IH : forall t i v r, deser n E t i = Ok (v, r) ->
    exists c, i = c ++ r /\ accepts E t v c) tk tv k : forall i kvs r,
  read_seq (repeat (fun i => '(k, i) <- deser n E tk i;; '(v, i) <- deser n E tv i;;
                             Ok ((k, v), i)) k) i = Ok (kvs, r) ->
  length kvs = k /\
  exists c, i = c ++ r /\ accepts_all E (flat_map (fun _ => [tk; tv]) kvs)
                                        (flat_map (fun '(k, v) => [k; v]) kvs) c.
Proof.
  induction k as [|k IHk]; intros i kvs r H; cbn in H.
  - injection H as <- <-. split; [reflexivity|]. exists []. split; [reflexivity|constructor].
  - apply bind_ok in H as ([[kk vv] i1] & H1 & H). apply bind_ok in H as ([l i2] & H2 & H).
    injection H as <- <-.
    apply bind_ok in H1 as ([k1 j1] & H1 & H3). apply bind_ok in H3 as ([v1 j2] & H3 & H4).
    injection H4 as -> -> ->.
    apply IH in H1 as (c1 & -> & A1). apply IH in H3 as (c2 & -> & A2).
    apply IHk in H2 as (L & c3 & -> & A3). split; [cbn; lia|].
    exists (c1 ++ c2 ++ c3). split; [now rewrite !app_assoc|].
    cbn. constructor; [assumption|]. now constructor.
Qed.

Lemma fields_accepts n E (IH : forall t i v r, deser n E t i = Ok (v, r) ->
    exists c, i = c ++ r /\ accepts E t v c) ts pos i vs s :
  visit_fields (map (deser n E) ts) pos (zlen ts, i) = Ok (vs, s) ->
  exists c, i = c ++ snd s /\ accepts_all E ts vs c.
Proof.
  intros H. rewrite visit_fields_seq in H by (unfold zlen; rewrite map_length; lia).
  apply bind_ok in H as ([l r] & H & E1). injection E1 as <- <-.
  eapply read_seq_accepts; eauto.
Qed.

Lemma fields_unwrap_accepts n E (IH : forall t i v r, deser n E t i = Ok (v, r) ->
    exists c, i = c ++ r /\ accepts E t v c) ts i vs s :
  visit_fields_unwrap (map (deser n E) ts) (9, i) = Ok (vs, s) ->
  (length ts <= 9)%nat /\ exists c, i = c ++ snd s /\ accepts_all E ts vs c.
Proof.
  intros H. assert (0 <= 9) as L9 by lia.
  pose proof (@visit_fields_unwrap_len _ _ 9 i vs s L9 H) as L.
  unfold zlen in L. rewrite map_length in L. split; [lia|].
  rewrite visit_fields_unwrap_seq in H by (unfold zlen; rewrite map_length; lia).
  apply bind_ok in H as ([l r] & H & E1). injection E1 as <- <-.
  eapply read_seq_accepts; eauto.
Qed.

Lemma de_variant_index_inv k i x r : de_variant_index k i = Ok (x, r) ->
  exists w, i = w ++ r /\ unsigned 4 (Z.of_nat x) w /\ Z.of_nat x < 2 ^ 31 /\ (x < k)%nat.
Proof.
  unfold de_variant_index. intros H. apply bind_ok in H as ([z i1] & H1 & H).
  apply read_i32_inv in H1 as (w & -> & S).
  destruct (Z.ltb_spec z 0); [discriminate|].
  destruct (Z.ltb_spec z (Z.of_nat k)); [|discriminate].
  injection H as <- <-. exists w. rewrite Z2Nat.id by lia.
  apply (signed_range (k := 4)) in S as R; [|lia]. cbn in R.
  repeat split; try lia; apply (signed_unsigned S); lia.
Qed.

Ltac inv_ok H := apply bind_ok in H; destruct H as ([? ?] & ? & H).

Lemma deser_accepts n E : forall t i v r, deser n E t i = Ok (v, r) ->
  exists c, i = c ++ r /\ accepts E t v c.
Proof.
  induction n as [|n IH]; intros t i v r H; [discriminate|].
  destruct t; cbn [deser] in H.
  - (* bool *)
    inv_ok H. injection H as <- <-. apply read_u32_inv in H0 as (w & -> & U).
    exists w. split; [reflexivity|]. destruct (Z.eqb_spec z 0) as [->|NZ]; cbn.
    + now constructor.
    + now apply ac_true with (z := z).
  - inv_ok H. injection H as <- <-. apply de_int_inv in H0 as (Hw & word & z' & -> & U & R & M).
    exists word. split; [reflexivity|]. econstructor; eauto.
  - inv_ok H. injection H as <- <-. apply read_u32_inv in H0 as (wd & -> & U).
    exists wd. split; [reflexivity|]. now constructor.
  - inv_ok H. injection H as <- <-. apply read_u64_inv in H0 as (wd & -> & U).
    exists wd. split; [reflexivity|]. now constructor.
  - (* char *)
    inv_ok H. injection H as <- <-. unfold read_char in H0. inv_ok H0.
    apply read_u32_inv in H as (wd & -> & U).
    destruct (char_ok z0) eqn:C; [|discriminate]. injection H0 as <- <-.
    exists wd. split; [reflexivity|]. constructor; [assumption|]. now apply char_ok_spec.
  - inv_ok H. injection H as <- <-. apply read_string_inv in H0 as (nn & p & -> & U & P & V).
    exists (nn ++ l ++ p). split; [now rewrite <- !app_assoc|]. now constructor.
  - inv_ok H. injection H as <- <-. apply read_bytes_inv in H0 as (nn & p & -> & U & P).
    exists (nn ++ l ++ p). split; [now rewrite <- !app_assoc|]. now constructor.
  - (* option *)
    inv_ok H. apply read_u32_inv in H0 as (w & -> & U).
    destruct (Z.eqb_spec z 0) as [->|NZ].
    + injection H as <- <-. exists w. split; [reflexivity|now constructor].
    + inv_ok H. injection H as <- <-. apply IH in H0 as (c & -> & A).
      exists (w ++ c). split; [now rewrite <- app_assoc|]. econstructor; eauto.
  - injection H as <- <-. exists []. split; [reflexivity|constructor].
  - injection H as <- <-. exists []. split; [reflexivity|constructor].
  - apply IH in H as (c & -> & A). exists c. split; [reflexivity|now constructor].
  - apply IH in H as (c & -> & A). exists c. split; [reflexivity|now constructor].
  - (* seq *)
    inv_ok H. apply read_u32_inv in H0 as (w & -> & U).
    inv_ok H. injection H as <- <-.
    pose proof (unsigned_range U).
    assert (z = Z.of_nat (Z.to_nat z)) as Ez by lia. rewrite Ez, visit_vec_seq in H0.
    rewrite <- map_repeat in H0. apply read_seq_accepts in H0 as (c & -> & A); [|exact IH].
    pose proof (accepts_all_length A) as L. rewrite repeat_length in L.
    exists (w ++ c). split; [now rewrite <- app_assoc|].
    constructor; [|now rewrite L]. unfold zlen. rewrite L, <- Ez. exact U.
  - (* array *)
    inv_ok H. injection H as <- <-.
    rewrite visit_fields_seq in H0 by (unfold zlen; rewrite repeat_length; lia).
    inv_ok H0. injection H0 as <- <-. rewrite <- map_repeat in H.
    apply read_seq_accepts in H as (c & -> & A); [|exact IH].
    exists c. split; [reflexivity|now constructor].
  - inv_ok H. injection H as <- <-. apply fields_accepts in H0 as (c & -> & A); [|exact IH].
    exists c. split; [reflexivity|now constructor].
  - inv_ok H. injection H as <- <-. apply fields_accepts in H0 as (c & -> & A); [|exact IH].
    exists c. split; [reflexivity|now constructor].
  - inv_ok H. injection H as <- <-.
    rewrite <- (map_map snd (deser n E)) in H0.
    replace (zlen ts) with (zlen (map snd ts)) in H0 by (unfold zlen; now rewrite map_length).
    apply fields_accepts in H0 as (c & -> & A); [|exact IH].
    exists c. split; [reflexivity|now constructor].
  - (* map *)
    inv_ok H. apply read_u32_inv in H0 as (w & -> & U).
    inv_ok H. injection H as <- <-.
    pose proof (unsigned_range U).
    assert (z = Z.of_nat (Z.to_nat z)) as Ez by lia. rewrite Ez, visit_map_seq in H0.
    inv_ok H0. injection H0 as <- <-.
    apply read_seq_pairs in H1 as (L & c & -> & A); [|exact IH].
    exists (w ++ c). split; [now rewrite <- app_assoc|].
    econstructor; [|exact A|apply map_of_last_wins]. unfold zlen. rewrite L, <- Ez. exact U.
  - (* enum *)
    inv_ok H. apply de_variant_index_inv in H0 as (w & -> & U & B & K).
    destruct (nth_error vs n0) as [[name [|t|ts|ts]]|] eqn:V; [| | | |discriminate].
    + injection H as <- <-. exists w. split; [reflexivity|]. eapply ac_unit_variant; eauto.
    + inv_ok H. injection H as <- <-. apply IH in H0 as (c & -> & A).
      exists (w ++ c). split; [now rewrite <- app_assoc|]. eapply ac_newtype_variant; eauto.
    + inv_ok H. injection H as <- <-. apply fields_accepts in H0 as (c & -> & A); [|exact IH].
      exists (w ++ c). split; [now rewrite <- app_assoc|]. eapply ac_tuple_variant; eauto.
    + inv_ok H. injection H as <- <-.
      rewrite <- (map_map snd (deser n E)) in H0.
      replace (zlen ts) with (zlen (map snd ts)) in H0 by (unfold zlen; now rewrite map_length).
      apply fields_accepts in H0 as (c & -> & A); [|exact IH].
      exists (w ++ c). split; [now rewrite <- app_assoc|]. eapply ac_struct_variant; eauto.
  - (* fixed opaque *)
    inv_ok H. injection H as <- <-.
    destruct (de_opaque_fixed_cases n0 i) as [(bs & p & r & -> & L & M & P & E1)|[_ E1]];
      rewrite E1 in H0; [|discriminate].
    injection H0 as <- <-. exists (bs ++ p). split; [now rewrite <- app_assoc|].
    constructor; [assumption|split; assumption].
  - (* opaque *)
    inv_ok H. injection H as <- <-. unfold de_opaque_variable in H0.
    inv_ok H0. apply read_u32_inv in H as (w & -> & U).
    pose proof (unsigned_range U).
    destruct (@enumerate_u8_cases z l1) as [(bs & p & r & -> & L & M & P & E1)|[_ E1]]; [lia| |];
      rewrite E1 in H0; [|discriminate].
    injection H0 as <- <-. exists (w ++ bs ++ p). split; [now rewrite <- !app_assoc|].
    subst z. constructor; [assumption|split; assumption].
  - (* signed32 *)
    inv_ok H. apply read_i32_inv in H0 as (w & -> & S).
    destruct (with_dflt (assoc Z.eqb z try_from) d) eqn:D; try discriminate.
    injection H as <- <-. exists w. split; [reflexivity|]. econstructor; eauto.
  - (* indexer *)
    inv_ok H. unfold next_element in H0. cbn [Z.eqb] in H0. inv_ok H0. injection H0 as <- <-.
    apply read_i32_inv in H1 as (w & -> & S).
    destruct (with_dflt (assoc Z.eqb z names) d) as [name| |] eqn:D; try discriminate.
    destruct (find_variant name vs 0) as [[k ts]|] eqn:F; [|discriminate].
    apply find_variant_spec in F as (j & -> & Hn & Hf).
    inv_ok H. injection H as <- <-.
    apply fields_unwrap_accepts in H0 as (L & c & -> & A); [|exact IH].
    exists (w ++ c). split; [now rewrite <- app_assoc|]. cbn [Nat.add]. econstructor; eauto.
  - (* union *)
    inv_ok H. unfold next_element in H0. cbn [Z.eqb] in H0. inv_ok H0. injection H0 as <- <-.
    apply IH in H1 as (w & -> & S).
    destruct (with_dflt (assoc rval_eqb r0 names) d) as [name| |] eqn:D; try discriminate.
    destruct (find_variant name vs 0) as [[k [ts|]]|] eqn:F; [| |discriminate];
      apply find_variant_spec in F as (j & -> & Hn & Hf).
    + inv_ok H. injection H as <- <-.
      apply fields_unwrap_accepts in H0 as (L & c & -> & A); [|exact IH].
      exists (w ++ c). split; [now rewrite <- app_assoc|]. cbn [Nat.add]. econstructor; eauto.
    + injection H as <- <-. exists w. split; [reflexivity|]. cbn [Nat.add].
      eapply ac_union_unit; eauto.
  - (* ref *)
    destruct (lookup E name) eqn:L; [|discriminate].
    apply IH in H as (c & -> & A). exists c. split; [reflexivity|]. econstructor; eauto.
Qed.
