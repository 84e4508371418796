(** Proofs about the memory that decoding requests (C107). *)
From Verif Require Import Base Utf8 SerModel RustTypes SpecXdr SpecTypes DeModel SpecDecode XdrFacts ReadFacts
  RvalFacts DecProofs CodecProofs NormProofs CodecLemmas SpecMisc SpecWork WorkProofs AllocModel SpecAlloc.
Set Implicit Arguments. Unset Strict Implicit.
Local Open Scope list_scope.

Section Bound.
  Variable sz : ty -> Z.
  Variables (limit S P : Z).
  Hypothesis HL : 0 <= limit.
  Hypothesis HS : 1 <= S.
  Hypothesis HP : 0 <= P.
  Let R := 16 * S.
  Let A := limit + 16 * S.

  (** what [c] bytes of the input pay for *)
  Definition pay (c : Z) : Z := if c =? 0 then 0 else A * c - R.
  Lemma pay_0 : pay 0 = 0. Proof. reflexivity. Qed.
  Lemma pay_some c : 4 <= c -> pay c = A * c - R.
  Proof. intros H. unfold pay. destruct (Z.eqb_spec c 0); [lia|easy]. Qed.
  Lemma pay_nonneg c : c = 0 \/ 4 <= c -> 0 <= pay c.
  Proof. intros [->|H]; [easy|]. rewrite pay_some by easy. unfold A, R. nia. Qed.
  Lemma pay_le c : c = 0 \/ 4 <= c -> pay c <= A * c.
  Proof. intros [->|H]; [rewrite pay_0; lia|]. rewrite pay_some by easy. unfold R. lia. Qed.
  Lemma pay_add c d : c = 0 \/ 4 <= c -> d = 0 \/ 4 <= d -> pay c + pay d <= pay (c + d).
  Proof.
    intros [->|H] [->|K]; rewrite ?pay_0, ?Z.add_0_r, ?Z.add_0_l; [easy..|]. rewrite (pay_some H), (pay_some K), (@pay_some (c + d)), Z.mul_add_distr_l by lia. unfold R. lia.
  Qed.

  (** the cost [m] of running [p] *)
  Definition paid {B} (m : st -> Z) (p : parser B) : Prop := forall i,
    (forall v r, p i = Ok (v, r) -> exists c, zlen i = zlen r + c /\ (c = 0 \/ 4 <= c) /\ 0 <= m i <= pay c) /\
    ((forall x, p i <> Ok x) -> 0 <= m i <= A * zlen i + P).

  Lemma A_pos : 16 <= A. Proof. unfold A. lia. Qed.
  Lemma A_mono c d : c <= d -> A * c <= A * d. Proof. pose proof A_pos. nia. Qed.

  (** ** Vectors *)
  Section Vec.
    Variables (B : Type) (size : Z) (m : st -> Z) (p : parser B).
    Hypothesis Hsz : 0 <= size <= S.
    Hypothesis PD : paid m p.
    Hypothesis Hp : size = 0 \/ forall i v r, p i = Ok (v, r) -> zlen r < zlen i.

    Let stp := (fun '(i, len, cap, total) =>
               match p i with
               | Ok (_, i') =>
                   if (len =? cap) && negb (size =? 0)
                   then inl (i', len + 1, grow size cap, total + m i + size * grow size cap)
                   else inl (i', len + 1, cap, total + m i)
               | _ => inr (total + m i)
               end : (st * Z * Z * Z) + Z).
    Let R' := if size =? 0 then 0 else R.
    Definition grown (len cap g : Z) : Prop := g = 0 \/ (0 <= g <= 2 * cap /\ cap <= 8 * len /\ 1 <= len).
    Lemma grown_le len cap g : 0 <= len -> grown len cap g -> size * g <= R' * len.
    Proof.
      intros L [->|(G & C & L1)]; unfold R'; destruct (Z.eqb_spec size 0); unfold R; nia.
    Qed.
    Lemma grown_keep len cap g : 0 <= len -> grown len cap g -> grown (len + 1) cap g.
    Proof. intros L [->|(G & C & L1)]; [now left|right; lia]. Qed.
    Lemma grown_more cap g : 0 <= cap -> grown cap cap g -> grown (cap + 1) (grow size cap) (g + grow size cap).
    Proof.
      intros L H. right. assert (M : 1 <= min_cap size <= 8) by (unfold min_cap; destruct (size =? 1), (size <=? 1024); lia).
      unfold grow. destruct H as [->|(G & C & L1)]; lia.
    Qed.

    Lemma vec_loop k : forall i len cap g cs tot, 0 <= len -> 0 <= cap -> grown len cap g -> 0 <= cs -> 0 <= tot ->
      tot <= limit + size * g + A * cs - R' * len ->
      let t := match loop_nat stp k (i, len, cap, tot) with inl (_, _, _, t) => t | inr t => t end in
      0 <= t /\
      (forall l r, read_seq (repeat p k) i = Ok (l, r) -> t <= limit + A * (cs + (zlen i - zlen r))) /\
      ((forall x, read_seq (repeat p k) i <> Ok x) -> t <= limit + A * (cs + zlen i) + P).
    Proof.
      induction k as [|k IH]; intros i len cap g cs tot L C G CS T0 T.
      - cbn. pose proof (grown_le L G). split; [easy|]. split; [|intros N; now destruct (N ([], i))].
        intros l r [= <- <-]. replace (cs + (zlen i - zlen i)) with cs by lia. lia.
      - change (repeat p (Datatypes.S k)) with (p :: repeat p k). cbn [read_seq loop_nat]. pose proof (PD i) as [PO PN].
        assert (RL : 0 <= R' * len) by (unfold R'; destruct (size =? 0); unfold R; nia). pose proof (grown_le L G) as GL.
        assert (ST : stp (i, len, cap, tot) = match p i with
               | Ok (_, i') =>
                   if (len =? cap) && negb (size =? 0)
                   then inl (i', len + 1, grow size cap, tot + m i + size * grow size cap)
                   else inl (i', len + 1, cap, tot + m i)
               | _ => inr (tot + m i)
               end) by reflexivity.
        rewrite ST. clear ST. destruct (p i) as [[a i']| | | |] eqn:Ep; cbn [bind];
          try (split; [destruct (PN ltac:(discriminate)); lia|]; split; [discriminate|]; intros _; destruct (PN ltac:(discriminate)); rewrite Z.mul_add_distr_l; lia).
        destruct (PO _ _ eq_refl) as (c & Hc & Cc & M0 & M).
        assert (R'1 : pay c <= A * c - R').
        { unfold R'. destruct (Z.eqb_spec size 0) as [E0|NZ]; [pose proof (pay_le Cc); lia|]. destruct Hp as [?|Hp']; [easy|].
          specialize (Hp' _ _ _ Ep). destruct Cc as [->|C4]; [lia|]. rewrite pay_some by easy. lia. }
        assert (STEP : forall cap' g' tot', 0 <= cap' -> grown (len + 1) cap' g' -> 0 <= tot' -> tot' <= tot + m i + size * (g' - g) ->
          let t := match loop_nat stp k (i', len + 1, cap', tot') with inl (_, _, _, t) => t | inr t => t end in
          0 <= t /\
          (forall l r, ('(l, i0) <- read_seq (repeat p k) i';; Ok (a :: l, i0)) = Ok (l, r) -> t <= limit + A * (cs + (zlen i - zlen r))) /\
          ((forall x, ('(l, i0) <- read_seq (repeat p k) i';; Ok (a :: l, i0)) <> Ok x) -> t <= limit + A * (cs + zlen i) + P)).
        { intros cap' g' tot' C' G' T' TT. cbv zeta. destruct (IH i' (len + 1) cap' g' (cs + c) tot') as (I0 & I1 & I2); try easy; [lia|lia| |].
          - nia.
          - split; [exact I0|]. split.
            + intros l r HR. apply bind_ok in HR as ([l' i0] & HR & [= <- <-]). specialize (I1 _ _ HR).
              replace (cs + (zlen i - zlen i0)) with (cs + c + (zlen i' - zlen i0)) by lia. exact I1.
            + intros N. replace (cs + zlen i) with (cs + c + zlen i') by lia. apply I2. intros [l' i0] HR. rewrite HR in N. now destruct (N (a :: l', i0)). }
        destruct ((len =? cap) && negb (size =? 0)) eqn:Eq.
        + apply andb_prop in Eq as [E1 E2]. apply Z.eqb_eq in E1 as ->. apply STEP with (g' := g + grow size cap).
          * unfold grow. lia.
          * now apply grown_more.
          * assert (0 <= grow size cap) by (unfold grow; lia). nia.
          * lia.
        + apply STEP with (g' := g); try easy; [now apply grown_keep|lia|lia].
    Qed.

    Lemma vec_paid count i : 0 <= count ->
      0 <= meter_vec limit size m p count i /\
      (forall l r, visit_vec p (count, i) = Ok (l, r) -> meter_vec limit size m p count i <= limit + A * (zlen i - zlen r)) /\
      ((forall x, visit_vec p (count, i) <> Ok x) -> meter_vec limit size m p count i <= limit + A * zlen i + P).
    Proof.
      intros Hc. unfold meter_vec. cbv zeta. fold stp. rewrite loopZ_nat. assert (VV : visit_vec p (count, i) = read_seq (repeat p (Z.to_nat count)) i) by (rewrite <- (Z2Nat.id count) at 1 by easy; apply visit_vec_seq).
      rewrite VV.
      assert (C0 : 0 <= cautious limit size count /\ size * cautious limit size count <= limit).
      { unfold cautious. destruct (Z.eqb_spec size 0) as [->|NZ]; [lia|]. assert (0 <= limit / size) by (apply Z.div_pos; lia).
        pose proof (Z.mul_div_le limit size). split; [lia|]. assert (size * Z.min count (limit / size) <= size * (limit / size)) by (apply Z.mul_le_mono_nonneg_l; lia). lia. }
      destruct (@vec_loop (Z.to_nat count) i 0 (cautious limit size count) 0 0 (size * cautious limit size count)) as (I0 & I1 & I2); try lia; [now left|].
      split; [exact I0|]. split; [exact I1|exact I2].
    Qed.
  End Vec.

  (** ** Members *)
  Lemma fields_paid {B} (l : list ((st -> Z) * parser B)) : Forall (fun mp => paid (fst mp) (snd mp)) l -> forall pos count i,
    (forall vs s, visit_fields (map snd l) pos (count, i) = Ok (vs, s) -> exists c, zlen i = zlen (snd s) + c /\ (c = 0 \/ 4 <= c) /\ 0 <= meter_fields l count i <= pay c) /\
    ((forall x, visit_fields (map snd l) pos (count, i) <> Ok x) -> 0 <= meter_fields l count i <= A * zlen i + P).
  Proof.
    induction 1 as [|[m p] l PD _ IH]; intros pos count i.
    - cbn. split; [|intros N; now destruct (N ([], (count, i)))]. intros vs s [= <- <-]. exists 0. rewrite pay_0. cbn. lia.
    - cbn [map visit_fields meter_fields fst snd] in *. unfold next_element. pose proof (zlen_nonneg i). pose proof A_pos. destruct (count =? 0).
      + cbn. split; [discriminate|]. intros _. nia.
      + destruct (PD i) as [PO PN]. destruct (p i) as [[a i']| | | |] eqn:Ep; cbn [bind];
          try (split; [discriminate|]; intros _; destruct (PN ltac:(discriminate)); lia).
        destruct (PO _ _ eq_refl) as (c & Hc & Cc & M0 & M). destruct (IH (pos + 1) (count - 1) i') as [I1 I2]. split.
        * intros vs s HR. apply bind_ok in HR as ([l' s'] & HR & [= <- <-]). destruct (I1 _ _ HR) as (d & Hd & Cd & N0 & N). exists (c + d).
          split; [lia|]. split; [lia|]. pose proof (pay_add Cc Cd). lia.
        * intros N. assert (0 <= meter_fields l (count - 1) i' <= A * zlen i' + P); [|pose proof (pay_le Cc); nia].
          apply I2. intros [l' s'] HR. rewrite HR in N. now destruct (N (a :: l', s')).
  Qed.
  Lemma unwrap_paid {B} (l : list ((st -> Z) * parser B)) : Forall (fun mp => paid (fst mp) (snd mp)) l -> forall count i,
    (forall vs s, visit_fields_unwrap (map snd l) (count, i) = Ok (vs, s) -> exists c, zlen i = zlen (snd s) + c /\ (c = 0 \/ 4 <= c) /\ 0 <= meter_fields l count i <= pay c) /\
    ((forall x, visit_fields_unwrap (map snd l) (count, i) <> Ok x) -> 0 <= meter_fields l count i <= A * zlen i + P).
  Proof.
    induction 1 as [|[m p] l PD _ IH]; intros count i.
    - cbn. split; [|intros N; now destruct (N ([], (count, i)))]. intros vs s [= <- <-]. exists 0. rewrite pay_0. cbn. lia.
    - cbn [map visit_fields_unwrap meter_fields fst snd] in *. unfold next_element. pose proof (zlen_nonneg i). pose proof A_pos. destruct (count =? 0).
      + cbn. split; [discriminate|]. intros _. nia.
      + destruct (PD i) as [PO PN]. destruct (p i) as [[a i']| | | |] eqn:Ep; cbn [bind];
          try (split; [discriminate|]; intros _; destruct (PN ltac:(discriminate)); lia).
        destruct (PO _ _ eq_refl) as (c & Hc & Cc & M0 & M). destruct (IH (count - 1) i') as [I1 I2]. split.
        * intros vs s HR. apply bind_ok in HR as ([l' s'] & HR & [= <- <-]). destruct (I1 _ _ HR) as (d & Hd & Cd & N0 & N). exists (c + d).
          split; [lia|]. split; [lia|]. pose proof (pay_add Cc Cd). lia.
        * intros N. assert (0 <= meter_fields l (count - 1) i' <= A * zlen i' + P); [|pose proof (pay_le Cc); nia].
          apply I2. intros [l' s'] HR. rewrite HR in N. now destruct (N (a :: l', s')).
  Qed.

  (** ** Types *)
  Lemma modest_inner E t u : In u (inner E t) -> modest sz S P E t -> modest sz S P E u.
  Proof.
    intros I (H1 & H2 & H3 & H4 & H5). split; [|split; [|split; [|split]]]; intros; [apply H1|apply H2|eapply H3; [|eassumption]|apply H4|apply H5]; eapply wi_inner; eauto.
  Qed.

  Lemma deser_consumes n E t i v r : deser n E t i = Ok (v, r) -> exists c, zlen i = zlen r + c /\ (c = 0 \/ 4 <= c).
  Proof.
    intros H. apply deser_accepts in H as (b & -> & H). apply (proj1 (accepts_aligned E)) in H. exists (zlen b). rewrite zlen_app. pose proof (zlen_nonneg b). lia.
  Qed.
  Lemma never_empty_consumes n E t i v r : never_empty E t -> deser n E t i = Ok (v, r) -> zlen r < zlen i.
  Proof.
    intros N H. apply deser_accepts in H as (b & -> & H). rewrite zlen_app. pose proof (zlen_nonneg b). destruct b; [now apply never_empty_accepts in H|]. rewrite zlen_cons in *. pose proof (zlen_nonneg b0). lia.
  Qed.

  (** reading that requests nothing *)
  Lemma free_paid {B} (p : parser B) : (forall i v r, p i = Ok (v, r) -> exists c, zlen i = zlen r + c /\ (c = 0 \/ 4 <= c)) -> paid (fun _ => 0) p.
  Proof.
    intros H i. pose proof A_pos. pose proof (zlen_nonneg i). split; [|intros _; nia]. intros v r Hp. destruct (H _ _ _ Hp) as (c & Hc & Cc). exists c. split; [easy|]. split; [easy|].
    pose proof (pay_nonneg Cc). lia.
  Qed.
  Lemma paid_map {B C} (m : st -> Z) (p : parser B) (f : B -> C) : paid m p -> paid m (fun i => '(b, i) <- p i;; Ok (f b, i)).
  Proof.
    intros H i. destruct (H i) as [H1 H2]. split.
    - intros v r K. apply bind_ok in K as ([b r'] & K & [= <- <-]). eauto.
    - intros N. apply H2. intros [b r] K. rewrite K in N. now destruct (N (f b, r)).
  Qed.
  Lemma paid_ext {B} (m m' : st -> Z) (p p' : parser B) : (forall i, m i = m' i) -> (forall i, p i = p' i) -> paid m p -> paid m' p'.
  Proof. intros H1 H2 H i. rewrite <- H1, <- H2. apply H. Qed.
  (** the same with [k] to spare *)
  Definition paidx (k : Z) {B} (m : st -> Z) (p : parser B) : Prop := forall i,
    (forall v r, p i = Ok (v, r) -> exists c, zlen i = zlen r + c /\ (c = 0 \/ 4 <= c) /\ 0 <= m i /\ m i + k <= pay c) /\
    ((forall x, p i <> Ok x) -> 0 <= m i <= A * zlen i + P).
  Lemma paidx_0 {B} (m : st -> Z) (p : parser B) : paidx 0 m p <-> paid m p.
  Proof. split; intros H i; destruct (H i) as [H1 H2]; (split; [|exact H2]); intros v r K; destruct (H1 _ _ K) as (c & ? & ? & ?); exists c; lia. Qed.
  Lemma paidx_le k k' {B} (m : st -> Z) (p : parser B) : k' <= k -> paidx k m p -> paidx k' m p.
  Proof. intros L H i; destruct (H i) as [H1 H2]; (split; [|exact H2]); intros v r K; destruct (H1 _ _ K) as (c & ? & ? & ?); exists c; lia. Qed.

  Lemma paidx_ext k {B} (m m' : st -> Z) (p p' : parser B) : (forall i, m i = m' i) -> (forall i, p i = p' i) -> paidx k m p -> paidx k m' p'.
  Proof. intros H1 H2 H i. rewrite <- H1, <- H2. apply H. Qed.
  (** a word, then something *)
  Lemma word_paid {B C} (q : parser B) (m : B -> st -> Z) (p : B -> parser C) :
    (forall i b r, q i = Ok (b, r) -> zlen i = zlen r + 4) -> (forall b, paid (m b) (p b)) ->
    paidx S (fun i => match q i with Ok (b, i) => m b i | _ => 0 end) (fun i => '(b, i) <- q i;; p b i).
  Proof.
    intros HQ PP i. pose proof A_pos. pose proof (zlen_nonneg i). destruct (q i) as [[b r]| | | |] eqn:Eq; cbn [bind]; try (split; [discriminate|intros _; nia]).
    specialize (HQ _ _ _ Eq). destruct (PP b r) as [H1 H2]. split.
    - intros v r' K. destruct (H1 _ _ K) as (c & Hc & Cc & M). exists (c + 4). split; [lia|]. split; [lia|]. split; [lia|].
      pose proof (@pay_add c 4 Cc ltac:(lia)) as PA. rewrite (@pay_some 4) in PA by lia. unfold A, R in *. lia.
    - intros N. specialize (H2 N). rewrite HQ. nia.
  Qed.
  Lemma then_paid {B C} (m : st -> Z) (p : parser B) (m' : B -> st -> Z) (p' : B -> parser C) : paid m p -> (forall b, paid (m' b) (p' b)) ->
    paid (fun i => m i + match p i with Ok (b, i) => m' b i | _ => 0 end) (fun i => '(b, i) <- p i;; p' b i).
  Proof.
    intros H H' i. destruct (H i) as [H1 H2]. destruct (p i) as [[b r]| | | |] eqn:Ep; cbn [bind];
      try (split; [discriminate|intros _; destruct (H2 ltac:(discriminate)); lia]).
    destruct (H1 _ _ eq_refl) as (c & Hc & Cc & M). destruct (H' b r) as [K1 K2]. split.
    - intros v r' K. destruct (K1 _ _ K) as (d & Hd & Cd & N). exists (c + d). split; [lia|]. split; [lia|]. pose proof (pay_add Cc Cd). lia.
    - intros N. specialize (K2 N). pose proof (pay_le Cc). rewrite Hc. nia.
  Qed.
  Lemma never_paid {B} (r : res (B * st)) : (forall x, r <> Ok x) -> paid (fun _ => 0) (fun _ => r).
  Proof. intros H. apply free_paid. intros i v r' K. now destruct (H _ K). Qed.
  Lemma ok_paid {B} (v : B) : paid (fun _ => 0) (fun i => Ok (v, i)).
  Proof. apply free_paid. intros i v' r [= _ <-]. exists 0. lia. Qed.
  Lemma fields_done {B C} (f : list B -> C) (ms : list (st -> Z)) (ps : list (parser B)) count : Forall2 paid ms ps ->
    paid (meter_fields (combine ms ps) count) (fun i => '(l, s) <- visit_fields ps 0 (count, i);; Ok (f l, snd s)).
  Proof.
    intros F i. assert (G : Forall (fun mp => paid (fst mp) (snd mp)) (combine ms ps) /\ map snd (combine ms ps) = ps).
    { induction F as [|m p ms ps H _ [I1 I2]]; cbn; [now split|]. split; [now constructor|now rewrite I2]. }
    destruct G as [G1 G2]. destruct (fields_paid G1 0 count i) as [H1 H2]. rewrite G2 in H1, H2. split.
    - intros v r K. apply bind_ok in K as ([l s] & K & [= <- <-]). eauto.
    - intros N. apply H2. intros [l s] K. rewrite K in N. now destruct (N (f l, snd s)).
  Qed.
  Lemma unwrap_done {B C} (f : list B -> C) (ms : list (st -> Z)) (ps : list (parser B)) count : Forall2 paid ms ps ->
    paid (meter_fields (combine ms ps) count) (fun i => '(l, s) <- visit_fields_unwrap ps (count, i);; Ok (f l, snd s)).
  Proof.
    intros F i. assert (G : Forall (fun mp => paid (fst mp) (snd mp)) (combine ms ps) /\ map snd (combine ms ps) = ps).
    { induction F as [|m p ms ps H _ [I1 I2]]; cbn; [now split|]. split; [now constructor|now rewrite I2]. }
    destruct G as [G1 G2]. destruct (unwrap_paid G1 count i) as [H1 H2]. rewrite G2 in H1, H2. split.
    - intros v r K. apply bind_ok in K as ([l s] & K & [= <- <-]). eauto.
    - intros N. apply H2. intros [l s] K. rewrite K in N. now destruct (N (f l, snd s)).
  Qed.
  Lemma field_list {T B C} (g : T -> B) (h : T -> C) ts : map (fun t => (g t, h t)) ts = combine (map g ts) (map h ts).
  Proof. induction ts; cbn; congruence. Qed.
  Lemma field_repeat {B C} (b : B) (c : C) k : repeat (b, c) k = combine (repeat b k) (repeat c k).
  Proof. induction k; cbn; congruence. Qed.
  Lemma word_u32 i z r : read_u32 i = Ok (z, r) -> zlen i = zlen r + 4 /\ 0 <= z <= 2 ^ 32 - 1.
  Proof. intros H. apply read_u32_inv in H as (w & -> & U). rewrite zlen_app. pose proof (unsigned_range U). apply unsigned_len in U. lia. Qed.
  Lemma word_i32 i z r : read_i32 i = Ok (z, r) -> zlen i = zlen r + 4.
  Proof. intros H. apply read_i32_inv in H as (w & -> & [L _]). rewrite zlen_app. assert (zlen w = 4) by (unfold zlen; now rewrite L). lia. Qed.
  Lemma text_pays n c : 0 <= n -> 4 + n <= c -> n + S <= pay c.
  Proof. intros H K. rewrite pay_some by lia. unfold A, R. nia. Qed.

  Lemma seq_consumes {B} (m : st -> Z) (p : parser B) k : paid m p -> forall i l r, read_seq (repeat p k) i = Ok (l, r) ->
    exists c, zlen i = zlen r + c /\ (c = 0 \/ 4 <= c).
  Proof.
    intros PD. induction k as [|k IH]; cbn; intros i l r H; [injection H as <- <-; exists 0; lia|].
    apply bind_ok in H as ([a i'] & H1 & H). apply bind_ok in H as ([l' r'] & H2 & [= <- <-]).
    destruct (proj1 (PD i) _ _ H1) as (c & Hc & Cc & _). destruct (IH _ _ _ H2) as (d & Hd & Cd). exists (c + d). lia.
  Qed.
  Lemma vec_done {B C} size (m : st -> Z) (p : parser B) (f : list B -> C) : 0 <= size <= S -> paid m p ->
    (size = 0 \/ forall i v r, p i = Ok (v, r) -> zlen r < zlen i) ->
    paidx S (fun i => match read_u32 i with Ok (count, i) => meter_vec limit size m p count i | _ => 0 end)
         (fun i => '(count, i) <- read_u32 i;; '(l, i) <- visit_vec p (count, i);; Ok (f l, i)).
  Proof.
    intros HZ PD Hp i. pose proof A_pos. pose proof (zlen_nonneg i). destruct (read_u32 i) as [[count i']| | | |] eqn:Eq; cbn [bind]; try (split; [discriminate|intros _; nia]).
    apply word_u32 in Eq as [Hi Hc]. destruct (@vec_paid _ size m p HZ PD Hp count i' ltac:(lia)) as (V0 & V1 & V2). split.
    - intros v r K. apply bind_ok in K as ([l r'] & K & [= <- <-]). specialize (V1 _ _ K). rewrite <- (Z2Nat.id count) in K by lia. rewrite visit_vec_seq in K. destruct (seq_consumes PD K) as (c & Hcc & Cc).
      exists (c + 4). split; [lia|]. split; [lia|]. rewrite pay_some by lia. replace (zlen i' - zlen r') with c in V1 by lia. unfold A, R in *. lia.
    - intros N. assert (K : forall x, visit_vec p (count, i') <> Ok x) by (intros [l r] K; rewrite K in N; now destruct (N (f l, r))).
      specialize (V2 K). rewrite Hi. unfold A in *. lia.
  Qed.

  Lemma inplace_meter E n : forall t i, inplace t = true -> meter sz limit n E t i = 0.
  Proof.
    induction n as [|n IH]; intros t i H; [reflexivity|]. destruct t; try discriminate; try reflexivity; cbn [meter inplace] in *; [now apply IH|].
    generalize (Z.of_nat n0). revert i. induction n0 as [|k IHk]; intros i z; [reflexivity|]. cbn [repeat meter_fields]. destruct (z =? 0); [reflexivity|].
    rewrite IH by easy. destruct (deser n E t i) as [[? ?]| | | |]; try reflexivity. apply IHk.
  Qed.
  Lemma inplace_paid E n t : inplace t = true -> never_empty E t -> paidx S (meter sz limit n E t) (deser n E t).
  Proof.
    intros H NE i. pose proof A_pos. pose proof (zlen_nonneg i). rewrite inplace_meter by easy. split; [|intros _; nia]. intros v r K.
    pose proof (never_empty_consumes NE K) as L. apply deser_consumes in K as (c & Hc & [->|Cc]); [lia|]. exists c. split; [lia|]. split; [lia|]. split; [lia|].
    rewrite pay_some by easy. unfold A, R. nia.
  Qed.

  Definition claim E n t : Prop :=
    paidx (- S) (meter sz limit n E t) (deser n E t) /\ (unboxed_top sz E t -> paid (meter sz limit n E t) (deser n E t)) /\
    (worded t = true -> paidx S (meter sz limit n E t) (deser n E t)).
  Lemma meter_claim E n : forall t, modest sz S P E t -> claim E n t.
  Proof.
    induction n as [|n IHn]; intros t M.
    { assert (forall k, paidx k (meter sz limit 0 E t) (deser 0 E t)) as H.
      { intros k i. split; [discriminate|]. intros _. cbn. pose proof A_pos. pose proof (zlen_nonneg i). nia. }
      split; [apply H|]. split; [intros _; apply paidx_0, H|intros; apply H]. }
    assert (IHc : forall u, In u (inner E t) -> claim E n u) by (intros u I; apply IHn; now apply modest_inner with t).
    assert (IH : (forall u, t <> TOption u) -> forall u, In u (inner E t) -> paid (meter sz limit n E u) (deser n E u)).
    { intros NO u I. apply IHc; [exact I|]. intros b ->. destruct (proj1 (proj2 (proj2 M)) t b (wi_here _ _) I) as [H|H]; [easy|now destruct (NO (TBox b))]. }
    assert (IHs : (forall u, t <> TOption u) -> forall ts, (forall u, In u ts -> In u (inner E t)) -> Forall2 paid (map (meter sz limit n E) ts) (map (deser n E) ts)).
    { intros NO ts. induction ts as [|u ts IT]; cbn; intros H; constructor; [apply IH, H; [exact NO|now left]|apply IT; intros; apply H; now right]. }
    assert (TOP : 0 <= sz t <= S) by (apply (proj1 M); constructor).
    destruct (match t with TOption _ | TBox _ => true | _ => false end) eqn:SP.
    { destruct t as [| | | | | | |t| | | |t| | | | | | | | | | | | |]; try discriminate.
      - (* Option *)
        assert (PS : paidx S (meter sz limit (Datatypes.S n) E (TOption t)) (deser (Datatypes.S n) E (TOption t))).
        { intros i. pose proof A_pos. pose proof (zlen_nonneg i). cbn [meter deser]. destruct (read_u32 i) as [[z r]| | | |] eqn:Eq; cbn [bind]; try (split; [discriminate|intros _; nia]).
          apply word_u32 in Eq as [Hi _]. destruct (z =? 0).
          - split; [|intros N; now destruct (N (RNone, r))]. intros v r' [= <- <-]. exists 4. split; [lia|]. split; [lia|]. rewrite pay_some by lia. unfold A, R. lia.
          - destruct (proj1 (IHc t ltac:(now left)) r) as [H1 H2]. destruct (deser n E t r) as [[v r']| | | |] eqn:Ed; cbn [bind];
              try (split; [discriminate|intros _; destruct (H2 ltac:(discriminate)); nia]).
            split; [|intros N; now destruct (N (RSome v, r'))]. intros v' r'' [= <- <-]. destruct (H1 _ _ eq_refl) as (c & Hc & Cc & M0). exists (c + 4). split; [lia|]. split; [lia|].
            pose proof (@pay_add c 4 Cc ltac:(lia)) as PA. rewrite (@pay_some 4) in PA by lia. unfold A, R in *. lia. }
        split; [eapply paidx_le; [|exact PS]; lia|]. split; [intros _; apply paidx_0; eapply paidx_le; [|exact PS]; lia|intros; exact PS].
      - (* Box *)
        assert (T : 0 <= sz t <= S) by (apply (proj1 M); eapply wi_inner; [now left|constructor]).
        assert (ADD : forall k, paidx k (meter sz limit n E t) (deser n E t) -> paidx (k - sz t) (meter sz limit (Datatypes.S n) E (TBox t)) (deser (Datatypes.S n) E (TBox t))).
        { intros k H i. destruct (H i) as [H1 H2]. cbn [meter deser]. destruct (deser n E t i) as [[v r]| | | |] eqn:Ed;
            try (split; [discriminate|intros _; destruct (H2 ltac:(discriminate)); lia]).
          split; [|intros N; now destruct (N (v, r))]. intros v' r' [= <- <-]. destruct (H1 _ _ eq_refl) as (c & Hc & Cc & M0). exists c. lia. }
        split; [|split; [|discriminate]].
        + apply (@paidx_le (0 - sz t)); [lia|]. apply ADD, paidx_0. apply IH; [discriminate|now left].
        + intros U. apply paidx_0. destruct (U t eq_refl) as [Z0|[WO|[IP NE]]].
          * apply (@paidx_le (0 - sz t)); [lia|]. apply ADD, paidx_0. apply IH; [discriminate|now left].
          * apply (@paidx_le (S - sz t)); [lia|]. apply ADD. now apply (IHc t ltac:(now left)).
          * apply (@paidx_le (S - sz t)); [lia|]. apply ADD. now apply inplace_paid. }
    enough (PD : paid (meter sz limit (Datatypes.S n) E t) (deser (Datatypes.S n) E t) /\
      (worded t = true -> paidx S (meter sz limit (Datatypes.S n) E t) (deser (Datatypes.S n) E t))).
    { destruct PD as [PD PW]. split; [apply (@paidx_le 0); [lia|now apply paidx_0]|]. split; [easy|exact PW]. }
    destruct (worded t) eqn:WO.
    { enough (PX : paidx S (meter sz limit (Datatypes.S n) E t) (deser (Datatypes.S n) E t)) by (split; [apply paidx_0, (@paidx_le S); [lia|exact PX]|intros _; exact PX]).
      destruct t as [| | | | | | |t| | |t|t|t|k t|ts|ts|fs|tk tv|vss|k| |a b c|vss a names d|vss disc names d|x]; try discriminate SP; try discriminate WO.
    - (* String *)
      intros i. pose proof A_pos. pose proof (zlen_nonneg i). cbn [meter deser]. destruct (read_string i) as [[bs r]| | | |] eqn:Eq; cbn [bind]; try (split; [discriminate|intros _; nia]).
      split; [|intros N; now destruct (N (RStr bs, r))]. intros v r' [= <- <-]. apply read_string_inv in Eq as (w & p & -> & [U _] & _). exists (4 + zlen bs + zlen p).
      rewrite !zlen_app. pose proof (zlen_nonneg bs). pose proof (zlen_nonneg p). assert (zlen w = 4) by (unfold zlen; now rewrite U). split; [lia|]. split; [lia|]. split; [easy|]. apply text_pays; lia.
    - (* ByteBuf *)
      intros i. pose proof A_pos. pose proof (zlen_nonneg i). cbn [meter deser]. destruct (read_bytes i) as [[bs r]| | | |] eqn:Eq; cbn [bind]; try (split; [discriminate|intros _; nia]).
      split; [|intros N; now destruct (N (RBytes bs, r))]. intros v r' [= <- <-]. apply read_bytes_inv in Eq as (w & p & -> & [U _] & _). exists (4 + zlen bs + zlen p).
      rewrite !zlen_app. pose proof (zlen_nonneg bs). pose proof (zlen_nonneg p). assert (zlen w = 4) by (unfold zlen; now rewrite U). split; [lia|]. split; [lia|]. split; [easy|]. apply text_pays; lia.
    - (* Vec *)
      apply (@vec_done _ _ (sz t) (meter sz limit n E t) (deser n E t) RSeq).
      + apply (proj1 M). eapply wi_inner; [now left|constructor].
      + apply IH; [discriminate|now left].
      + destruct (proj1 (proj2 M) t (wi_here _ _)) as [Z0|NE]; [now left|right]. intros i v r. now apply never_empty_consumes.
    - (* map *)
      eapply paidx_ext; [| |apply (@vec_done _ _ 0 (fun i => meter sz limit n E tk i + match deser n E tk i with Ok (_, i) => meter sz limit n E tv i | _ => 0 end)
        (fun i => '(k, i) <- deser n E tk i;; '(v, i) <- deser n E tv i;; Ok ((k, v), i)) (fun l => RMap (fold_left (fun m kv => map_insert (fst kv) (snd kv) m) l [])))].
      + intros i. reflexivity.
      + intros i. cbn [deser]. destruct (read_u32 i) as [[count j]| | | |]; try reflexivity. cbn [bind]. unfold visit_map. now destruct (visit_vec _ (count, j)) as [[l r]| | | |].
      + lia.
      + apply (@then_paid _ _ (meter sz limit n E tk) (deser n E tk) (fun _ => meter sz limit n E tv) (fun k i => '(v, i) <- deser n E tv i;; Ok ((k, v), i))); [apply IH; [discriminate|now left]|].
        intros k. apply (@paid_map _ _ _ _ (fun v => (k, v))). apply IH; [discriminate|right; now left].
      + now left.
    - (* enum *)
      apply (@word_paid _ _ (de_variant_index (length vss))
        (fun k i => match nth_error vss k with
              | Some (_, VNewtype t) => meter sz limit n E t i
              | Some (_, VTuple ts) => meter_fields (map (fun t => (meter sz limit n E t, deser n E t)) ts) (zlen ts) i
              | Some (_, VStruct ts) => meter_fields (map (fun f => (meter sz limit n E (snd f), deser n E (snd f))) ts) (zlen ts) i
              | _ => 0
              end)
        (fun k i => match nth_error vss k with
        | Some (_, VUnit) => Ok (RVariant k [], i)
        | Some (_, VNewtype t) => '(v, i) <- deser n E t i;; Ok (RVariant k [v], i)
        | Some (_, VTuple ts) => '(l, s) <- visit_fields (map (deser n E) ts) 0 (zlen ts, i);; Ok (RVariant k l, snd s)
        | Some (_, VStruct ts) => '(l, s) <- visit_fields (map (fun f => deser n E (snd f)) ts) 0 (zlen ts, i);; Ok (RVariant k l, snd s)
        | None => Stuck
        end)).
      + intros i k r K. apply de_variant_index_inv in K as (w & -> & [U _] & _). rewrite zlen_app. assert (zlen w = 4) by (unfold zlen; now rewrite U). lia.
      + intros k. destruct (nth_error vss k) as [[vn sh]|] eqn:Ek; [|apply never_paid; discriminate].
        assert (IN : forall u, In u (match sh with VUnit => [] | VNewtype t => [t] | VTuple ts => ts | VStruct ts => map snd ts end) -> In u (inner E (TEnum vss)))
          by (intros u Iu; apply nth_error_In in Ek; cbn [inner]; apply in_flat_map; eexists; split; [exact Ek|exact Iu]).
        destruct sh as [|t|ts|fs]; [apply ok_paid| | |].
        * apply (@paid_map _ _ _ _ (fun v => RVariant k [v])). apply IH; [discriminate|apply IN; now left].
        * eapply paid_ext; [|reflexivity|apply (@fields_done _ _ (RVariant k) (map (meter sz limit n E) ts) (map (deser n E) ts) (zlen ts)); apply IHs; [discriminate|easy]].
          intros i. now rewrite field_list.
        * eapply paid_ext; [| |apply (@fields_done _ _ (RVariant k) (map (meter sz limit n E) (map snd fs)) (map (deser n E) (map snd fs)) (zlen fs)); apply IHs; [discriminate|easy]].
          -- intros i. now rewrite field_list, !map_map.
          -- intros i. now rewrite !map_map.
    - (* indexed enum *)
      eapply paidx_ext; [intros i; reflexivity| |apply (@word_paid _ _ read_i32
        (fun z i => match with_dflt (assoc Z.eqb z names) d with
              | DVal name => match find_variant name vss 0 with Some (_, ts) => meter_fields (map (fun t => (meter sz limit n E t, deser n E t)) ts) 9 i | None => 0 end
              | _ => 0 end)
        (fun z i => match with_dflt (assoc Z.eqb z names) d with
            | DErr => Err (ECustom (MCannotConvert z))
            | DPanic => Panic
            | DVal name => match find_variant name vss 0 with
                | None => Panic
                | Some (k, ts) => '(l, s) <- visit_fields_unwrap (map (deser n E) ts) (9, i);; Ok (RVariant k l, snd s)
                end
            end))].
      + intros i. cbn [deser]. unfold next_element. change (10 =? 0) with false. cbv iota. now destruct (read_i32 i) as [[z r]| | | |].
      + apply word_i32.
      + intros z. destruct (with_dflt (assoc Z.eqb z names) d) as [name| |]; [|apply never_paid; discriminate..].
        destruct (find_variant name vss 0) as [[k ts]|] eqn:Ef; [|apply never_paid; discriminate].
        eapply paid_ext; [|reflexivity|apply (@unwrap_done _ _ (RVariant k) (map (meter sz limit n E) ts) (map (deser n E) ts) 9); apply IHs; [discriminate|]].
        * intros i. now rewrite field_list.
        * intros u Iu. cbn [inner]. apply find_variant_spec in Ef as (x & _ & Ef & _). apply nth_error_In in Ef. apply in_flat_map. eexists. split; [exact Ef|exact Iu].
    }
    split; [|discriminate].
    assert (FREE : (forall i, meter sz limit (Datatypes.S n) E t i = 0) -> paid (meter sz limit (Datatypes.S n) E t) (deser (Datatypes.S n) E t)).
    { intros H. eapply paid_ext; [intros i; symmetry; apply H|reflexivity|]. apply free_paid. apply deser_consumes. }
    destruct t as [| | | | | | |t| | |t|t|t|k t|ts|ts|fs|tk tv|vss|k| |a b c|vss a names d|vss disc names d|x]; try discriminate SP; try discriminate WO; try (apply FREE; reflexivity).
    - (* newtype *) apply IH; [discriminate|now left].
    - (* array *)
      eapply paid_ext; [|reflexivity|apply (@fields_done _ _ RSeq (repeat (meter sz limit n E t) k) (repeat (deser n E t) k) (Z.of_nat k))].
      + intros i. cbn [meter]. now rewrite field_repeat.
      + assert (PT : paid (meter sz limit n E t) (deser n E t)) by (apply IH; [discriminate|now left]). clear -PT. induction k; cbn; [constructor|]. now constructor.
    - (* tuple *)
      eapply paid_ext; [|reflexivity|apply (@fields_done _ _ RSeq (map (meter sz limit n E) ts) (map (deser n E) ts) (zlen ts)); apply IHs; [discriminate|easy]].
      intros i. cbn [meter]. now rewrite field_list.
    - (* tuple struct *)
      eapply paid_ext; [|reflexivity|apply (@fields_done _ _ RSeq (map (meter sz limit n E) ts) (map (deser n E) ts) (zlen ts)); apply IHs; [discriminate|easy]].
      intros i. cbn [meter]. now rewrite field_list.
    - (* struct *)
      eapply paid_ext; [| |apply (@fields_done _ _ RSeq (map (meter sz limit n E) (map snd fs)) (map (deser n E) (map snd fs)) (zlen fs)); apply IHs; [discriminate|easy]].
      + intros i. cbn [meter]. now rewrite field_list, !map_map.
      + intros i. cbn [deser]. now rewrite !map_map.
    - (* fixed opaque data *)
      pose proof (proj1 (proj2 (proj2 (proj2 M))) k (wi_here _ _)) as KP. intros i. pose proof A_pos. pose proof (zlen_nonneg i). cbn [meter deser].
      destruct (de_opaque_fixed_cases k i) as [(bs & p & r & -> & L & MM & PP & ->)|[_ ->]]; cbn [bind]; [|split; [discriminate|intros _; nia]].
      split; [|intros N; now destruct (N (RBytes bs, r))]. intros v r' [= <- <-]. exists (zlen bs + zlen p). rewrite !zlen_app.
      pose proof (zlen_nonneg bs). pose proof (zlen_nonneg p). split; [lia|]. assert (C : zlen bs + zlen p = 0 \/ 4 <= zlen bs + zlen p) by lia. split; [easy|].
      split; [lia|]. destruct C as [C|C]; [rewrite C, pay_0; unfold zlen in *; lia|]. rewrite pay_some by easy. unfold A, R, zlen in *. nia.
    - (* variable opaque data *)
      pose proof (proj2 (proj2 (proj2 (proj2 M))) (wi_here _ _)) as KP. intros i. pose proof A_pos. pose proof (zlen_nonneg i). cbn [meter deser]. unfold de_opaque_variable.
      destruct (read_u32 i) as [[z r]| | | |] eqn:Eq; cbn [bind]; try (split; [discriminate|intros _; nia]). apply word_u32 in Eq as [Hi Hz].
      destruct (@enumerate_u8_cases z r) as [(bs & p & r' & -> & L & MM & PP & ->)|[_ ->]]; [lia| |]; cbn [bind]; [|split; [discriminate|intros _; nia]].
      split; [|intros N; now destruct (N (RBytes bs, r'))]. intros v r'' [= <- <-]. exists (4 + (zlen bs + zlen p)). rewrite !zlen_app in Hi.
      pose proof (zlen_nonneg bs). pose proof (zlen_nonneg p). split; [lia|]. split; [lia|]. split; [lia|].
      pose proof (@text_pays z (4 + (zlen bs + zlen p))). lia.
    - (* union *)
      eapply paid_ext; [intros i; reflexivity| |apply (@then_paid _ _ (meter sz limit n E disc) (deser n E disc)
        (fun v i => match with_dflt (assoc rval_eqb v names) d with
              | DVal name => match find_variant name vss 0 with Some (_, Some ts) => meter_fields (map (fun t => (meter sz limit n E t, deser n E t)) ts) 9 i | _ => 0 end
              | _ => 0 end)
        (fun v i => match with_dflt (assoc rval_eqb v names) d with
            | DErr => Err (ECustom MCannotConvertValue)
            | DPanic => Panic
            | DVal name => match find_variant name vss 0 with
                | None => Panic
                | Some (k, None) => Ok (RVariant k [], i)
                | Some (k, Some ts) => '(l, s) <- visit_fields_unwrap (map (deser n E) ts) (9, i);; Ok (RVariant k (v :: l), snd s)
                end
            end))].
      + intros i. cbn [deser]. unfold next_element. change (10 =? 0) with false. cbv iota. now destruct (deser n E disc i) as [[z r]| | | |].
      + apply IH; [discriminate|now left].
      + intros z. destruct (with_dflt (assoc rval_eqb z names) d) as [name| |]; [|apply never_paid; discriminate..].
        destruct (find_variant name vss 0) as [[k [ts|]]|] eqn:Ef; [|apply ok_paid|apply never_paid; discriminate].
        eapply paid_ext; [|reflexivity|apply (@unwrap_done _ _ (fun l => RVariant k (z :: l)) (map (meter sz limit n E) ts) (map (deser n E) ts) 9); apply IHs; [discriminate|]].
        * intros i. now rewrite field_list.
        * intros u Iu. cbn [inner]. right. apply find_variant_spec in Ef as (x & _ & Ef & _). apply nth_error_In in Ef. apply in_flat_map. eexists. split; [exact Ef|exact Iu].
    - (* a named type *)
      intros i. cbn [meter deser]. pose proof A_pos. pose proof (zlen_nonneg i). destruct (lookup E x) as [t|] eqn:El; [|split; [discriminate|intros _; nia]].
      apply IH; [discriminate|]. cbn [inner]. rewrite El. now left.
  Qed.

  Lemma meter_bound E n t i : modest sz S P E t -> unboxed_top sz E t -> 0 <= meter sz limit n E t i <= (limit + 16 * S) * zlen i + P.
  Proof.
    intros M U. destruct (proj1 (proj2 (meter_claim n M)) U i) as [H1 H2]. destruct (deser n E t i) as [[v r]| | | |] eqn:Ed; try (apply H2; discriminate).
    destruct (H1 _ _ eq_refl) as (c & Hc & Cc & M0). pose proof (pay_le Cc). pose proof A_pos. pose proof (zlen_nonneg r). fold A. nia.
  Qed.
End Bound.

(** ** The factor per byte is as large as serde's limit *)
Section Lower.
  Variables (B : Type) (limit size : Z) (m : st -> Z) (p : parser B).
  Hypothesis Hsz : 0 <= size.
  Hypothesis Hm : forall i, 0 <= m i.
  Let stp := (fun '(i, len, cap, total) =>
             match p i with
             | Ok (_, i') =>
                 if (len =? cap) && negb (size =? 0)
                 then inl (i', len + 1, grow size cap, total + m i + size * grow size cap)
                 else inl (i', len + 1, cap, total + m i)
             | _ => inr (total + m i)
             end : (st * Z * Z * Z) + Z).
  Let fin (x : (st * Z * Z * Z) + Z) := match x with inl (_, _, _, t) => t | inr t => t end.
  Lemma lower_loop k : forall i len cap tot, 0 <= cap -> tot <= fin (loop_nat stp k (i, len, cap, tot)).
  Proof.
    induction k as [|k IH]; intros i len cap tot C; [cbn; lia|]. cbn [loop_nat].
    assert (ST : stp (i, len, cap, tot) = match p i with
               | Ok (_, i') =>
                   if (len =? cap) && negb (size =? 0)
                   then inl (i', len + 1, grow size cap, tot + m i + size * grow size cap)
                   else inl (i', len + 1, cap, tot + m i)
               | _ => inr (tot + m i)
               end) by reflexivity.
    rewrite ST. pose proof (@Hm i). assert (0 <= grow size cap) by (unfold grow; lia).
    destruct (p i) as [[a i']| | | |]; try (cbn; lia).
    destruct ((len =? cap) && negb (size =? 0)).
    - specialize (IH i' (len + 1) (grow size cap) (tot + m i + size * grow size cap) ltac:(easy)). nia.
    - specialize (IH i' (len + 1) cap (tot + m i) C). lia.
  Qed.
  Lemma lower_first count i : 0 < count -> 0 <= cautious limit size count -> size * cautious limit size count + m i <= meter_vec limit size m p count i.
  Proof.
    intros H C. unfold meter_vec. cbv zeta. fold stp. rewrite loopZ_nat. replace (Z.to_nat count) with (Datatypes.S (Z.to_nat (count - 1))) by lia.
    cbn [loop_nat]. set (cap := cautious limit size count) in *. set (k := Z.to_nat (count - 1)).
    assert (ST : stp (i, 0, cap, size * cap) = match p i with
               | Ok (_, i') =>
                   if (0 =? cap) && negb (size =? 0)
                   then inl (i', 0 + 1, grow size cap, size * cap + m i + size * grow size cap)
                   else inl (i', 0 + 1, cap, size * cap + m i)
               | _ => inr (size * cap + m i)
               end) by reflexivity.
    rewrite ST. assert (0 <= grow size cap) by (unfold grow; lia).
    destruct (p i) as [[a i']| | | |]; try lia.
    destruct ((0 =? cap) && negb (size =? 0)).
    - pose proof (@lower_loop k i' (0 + 1) (grow size cap) (size * cap + m i + size * grow size cap) ltac:(easy)) as L. unfold fin in L. nia.
    - exact (@lower_loop k i' (0 + 1) cap (size * cap + m i) C).
  Qed.
End Lower.
