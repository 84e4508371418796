(** Facts about the nom model. *)
From Verif Require Import Base Nom Keyword Ast ParserModel SpecGrammar.
Set Implicit Arguments.
Unset Strict Implicit.
Open Scope list_scope.

Lemma pbind_ok {A B} (p : nparser A) (f : A -> nparser B) i b r :
  pbind p f i = POk b r -> exists a i', p i = POk a i' /\ f a i' = POk b r.
Proof. unfold pbind. destruct (p i); intros H; try discriminate; eauto. Qed.

Lemma pmap_ok {A B} (p : nparser A) (f : A -> B) i b r :
  pmap p f i = POk b r -> exists a, p i = POk a r /\ b = f a.
Proof.
  unfold pmap. intros H. apply pbind_ok in H as (a & i' & H1 & H2).
  unfold pret in H2. injection H2 as <- <-. eauto.
Qed.

Lemma pair_ok {A B} (p : nparser A) (q : nparser B) i x r :
  pair p q i = POk x r -> exists a b i', p i = POk a i' /\ q i' = POk b r /\ x = (a, b).
Proof.
  unfold pair. intros H. apply pbind_ok in H as (a & i' & H1 & H2).
  apply pbind_ok in H2 as (b & i2 & H2 & H3). unfold pret in H3. injection H3 as <- <-. eauto 6.
Qed.

Lemma preceded_ok {A B} (p : nparser A) (q : nparser B) i x r :
  preceded p q i = POk x r -> exists a i', p i = POk a i' /\ q i' = POk x r.
Proof. apply pbind_ok. Qed.

Lemma terminated_ok {A B} (p : nparser A) (q : nparser B) i x r :
  terminated p q i = POk x r -> exists b i', p i = POk x i' /\ q i' = POk b r.
Proof.
  unfold terminated. intros H. apply pbind_ok in H as (a & i' & H1 & H2).
  apply pbind_ok in H2 as (b & i2 & H2 & H3). unfold pret in H3. injection H3 as <- <-. eauto.
Qed.

Lemma delimited_ok {A B C} (p : nparser A) (q : nparser B) (s : nparser C) i x r :
  delimited p q s i = POk x r ->
  exists a c i1 i2, p i = POk a i1 /\ q i1 = POk x i2 /\ s i2 = POk c r.
Proof.
  unfold delimited. intros H. apply preceded_ok in H as (a & i1 & H1 & H2).
  apply terminated_ok in H2 as (c & i2 & H2 & H3). eauto 8.
Qed.

Lemma opt_ok {A} (p : nparser A) i o r :
  opt p i = POk o r ->
  (exists a, o = Some a /\ p i = POk a r) \/ (o = None /\ r = i /\ p i = PErr).
Proof.
  unfold opt. destruct (p i) eqn:E; intros H; try discriminate; injection H as <- <-; eauto.
Qed.

Lemma peek_ok {A} (p : nparser A) i x r :
  peek p i = POk x r -> r = i /\ exists r', p i = POk x r'.
Proof.
  unfold peek. destruct (p i) eqn:E; intros H; try discriminate; injection H as <- <-; eauto.
Qed.

Lemma por_ok {A} (p q : nparser A) i x r :
  por p q i = POk x r -> p i = POk x r \/ (p i = PErr /\ q i = POk x r).
Proof. unfold por. destruct (p i) eqn:E; intros H; auto. Qed.

Lemma verify_ok {A} (p : nparser A) f i x r :
  verify p f i = POk x r -> p i = POk x r /\ f x = true.
Proof.
  unfold verify. destruct (p i) eqn:E; intros H; try discriminate.
  destruct (f a) eqn:F; [|discriminate]. injection H as <- <-. auto.
Qed.

Lemma recognize_ok {A} (p : nparser A) i x r :
  recognize p i = POk x r -> exists a, p i = POk a r /\ x = firstn (length i - length r) i.
Proof.
  unfold recognize. destruct (p i) eqn:E; intros H; try discriminate. injection H as <- <-. eauto.
Qed.

Lemma recognize_app {A} (p : nparser A) t i a r :
  p i = POk a r -> i = t ++ r -> recognize p i = POk t r.
Proof.
  intros H ->. unfold recognize. rewrite H. f_equal.
  rewrite app_length. replace (_ + _ - _)%nat with (length t + 0)%nat by lia.
  rewrite firstn_app_2. cbn. apply app_nil_r.
Qed.

(** ** Running sequences *)
Lemma pbind_run {A B} (p : nparser A) (f : A -> nparser B) i a r :
  p i = POk a r -> pbind p f i = f a r.
Proof. intros H. unfold pbind. now rewrite H. Qed.
Lemma pbind_err {A B} (p : nparser A) (f : A -> nparser B) i :
  p i = PErr -> pbind p f i = PErr.
Proof. intros H. unfold pbind. now rewrite H. Qed.
Lemma por_run {A} (p q : nparser A) i a r : p i = POk a r -> por p q i = POk a r.
Proof. intros H. unfold por. now rewrite H. Qed.
Lemma por_next {A} (p q : nparser A) i : p i = PErr -> por p q i = q i.
Proof. intros H. unfold por. now rewrite H. Qed.

(** ** Characters *)
Lemma code_range c : 0 <= code c < 256.
Proof. unfold code. pose proof (N_ascii_bounded c). lia. Qed.

Lemma code_inj c d : code c = code d -> c = d.
Proof.
  unfold code. intros H. rewrite <- (ascii_N_embedding c), <- (ascii_N_embedding d).
  f_equal. lia.
Qed.

Lemma eqb_code c d : Ascii.eqb c d = (code c =? code d).
Proof.
  destruct (Ascii.eqb_spec c d) as [->|N]; symmetry; [apply Z.eqb_refl|].
  apply Z.eqb_neq. intros H. apply N, code_inj, H.
Qed.

Ltac char_solve :=
  unfold name_char, name_start, is_alphanum, is_alpha, is_upper, is_lower, is_digit, is_oct,
    is_hex, is_space, is_eol in *;
  rewrite ?eqb_code in *;
  repeat match goal with |- context [code ?c] =>
    match c with Ascii _ _ _ _ _ _ _ _ => let z := eval vm_compute in (code c) in change (code c) with z end end;
  repeat match goal with H : context [code ?c] |- _ =>
    match c with Ascii _ _ _ _ _ _ _ _ => let z := eval vm_compute in (code c) in change (code c) with z in H end end;
  repeat match goal with
    | H : _ || _ = true |- _ => apply orb_true_iff in H as [H|H]
    | H : _ && _ = true |- _ => apply andb_true_iff in H as [? H]
    end;
  repeat match goal with
    | H : (_ <=? _) = true |- _ => apply Z.leb_le in H
    | H : (_ =? _) = true |- _ => apply Z.eqb_eq in H
    end.

Lemma name_not_space c : name_char c = true -> is_space c = false.
Proof.
  intros H. destruct (is_space c) eqn:E; [|reflexivity]. exfalso. char_solve; lia.
Qed.

Lemma name_start_char c : name_start c = true -> name_char c = true.
Proof.
  unfold name_start, name_char, is_alphanum. intros H.
  apply orb_true_iff in H as [->| ->]; [reflexivity|]. apply orb_true_r.
Qed.

(** ** tag, span *)
Lemma strip_app s r : strip s (s ++ r) = Some r.
Proof.
  induction s as [|c s IH]; cbn; [reflexivity|]. now rewrite Ascii.eqb_refl.
Qed.

Lemma strip_some s i r : strip s i = Some r -> i = s ++ r.
Proof.
  revert i. induction s as [|c s IH]; intros i H; cbn in H |- *; [congruence|].
  destruct i as [|d i]; [discriminate|]. destruct (Ascii.eqb_spec c d) as [->|]; [|discriminate].
  cbn. f_equal. auto.
Qed.

Lemma tag_ok s i x r : tag s i = POk x r -> i = chars s ++ r.
Proof.
  unfold tag. destruct (strip (chars s) i) eqn:E; intros H; [|discriminate].
  injection H as _ <-. now apply strip_some.
Qed.

Lemma tag_run s r : tag s (chars s ++ r) = POk tt r.
Proof. unfold tag. now rewrite strip_app. Qed.

Lemma tag_err s i : strip (chars s) i = None -> tag s i = PErr.
Proof. unfold tag. now intros ->. Qed.

Lemma span_ok f i a b : span f i = (a, b) ->
  i = a ++ b /\ Forall (fun c => f c = true) a /\ ~ starts f b.
Proof.
  revert a b. induction i as [|c i IH]; intros a b H; cbn in H.
  - injection H as <- <-. repeat split; auto.
  - destruct (f c) eqn:F.
    + destruct (span f i) as [a' b'] eqn:S. injection H as <- <-.
      destruct (IH _ _ eq_refl) as (-> & H1 & H2). repeat split; auto.
    + injection H as <- <-. repeat split; auto. cbn. congruence.
Qed.

Lemma span_app f a b : Forall (fun c => f c = true) a -> ~ starts f b -> span f (a ++ b) = (a, b).
Proof.
  intros H N. induction H as [|c a Hc _ IH]; cbn.
  - destruct b as [|c b]; [reflexivity|]. cbn in *. destruct (f c); [congruence|reflexivity].
  - rewrite Hc, IH. reflexivity.
Qed.

Lemma take_while0_ok f i a r : take_while0 f i = POk a r ->
  i = a ++ r /\ Forall (fun c => f c = true) a /\ ~ starts f r.
Proof.
  unfold take_while0. destruct (span f i) eqn:E. intros H. injection H as <- <-.
  now apply span_ok.
Qed.

Lemma take_while1_ok f i a r : take_while1 f i = POk a r ->
  i = a ++ r /\ Forall (fun c => f c = true) a /\ ~ starts f r /\ a <> [].
Proof.
  unfold take_while1. destruct (span f i) as [[|c a'] b'] eqn:E; intros H; [discriminate|].
  injection H as <- <-. apply span_ok in E as (? & ? & ?). repeat split; auto. discriminate.
Qed.

Lemma take_while0_run f a r : Forall (fun c => f c = true) a -> ~ starts f r ->
  take_while0 f (a ++ r) = POk a r.
Proof. intros. unfold take_while0. now rewrite span_app. Qed.

Lemma take_while1_run f a r : Forall (fun c => f c = true) a -> a <> [] -> ~ starts f r ->
  take_while1 f (a ++ r) = POk a r.
Proof. intros. unfold take_while1. rewrite span_app by assumption. destruct a; congruence. Qed.

Lemma take_while1_err f i : ~ starts f i -> take_while1 f i = PErr.
Proof.
  intros N. unfold take_while1. change i with ([] ++ i) at 1. rewrite span_app; auto.
Qed.

Lemma peek_space i : starts is_space i -> exists w, peek multispace1 i = POk w i.
Proof.
  intros H. unfold peek, multispace1, take_while1. destruct (span is_space i) as [[|c a] b] eqn:E.
  - apply span_ok in E as (-> & _ & N). contradiction.
  - eauto.
Qed.

Lemma peek_space_ok i w r : peek multispace1 i = POk w r -> r = i /\ starts is_space i.
Proof.
  intros H. apply peek_ok in H as (-> & r' & H). split; [reflexivity|].
  apply take_while1_ok in H as (-> & F & _ & N). destruct w; [congruence|].
  cbn. now inversion F.
Qed.

Lemma peek_space_err i : ~ starts is_space i -> peek multispace1 i = PErr.
Proof.
  intros N. unfold peek, multispace1. now rewrite take_while1_err.
Qed.

(** ** many0 *)
Inductive many {A} (p : nparser A) : list A -> text -> text -> Prop :=
| many_nil i : p i = PErr -> many p [] i i
| many_cons a l i i' r : p i = POk a i' -> (length i' < length i)%nat -> many p l i' r ->
    many p (a :: l) i r.

Definition shrinks {A} (p : nparser A) : Prop :=
  forall i a r, p i = POk a r -> (length r <= length i)%nat.

Lemma many0_n_ok {A} n (p : nparser A) l i r :
  shrinks p -> many0_n n p i = POk l r -> many p l i r.
Proof.
  intros S. revert l i r. induction n as [|n IH]; intros l i r H; [discriminate|]. cbn in H.
  destruct (p i) as [a r1| |] eqn:E; try discriminate.
  - destruct (Nat.eqb_spec (length r1) (length i)) as [L|L]; [discriminate|].
    destruct (many0_n n p r1) eqn:M; try discriminate. injection H as <- <-.
    apply S in E as L2. econstructor; eauto. lia.
  - injection H as <- <-. now constructor.
Qed.

Lemma many0_ok {A} (p : nparser A) l i r : shrinks p -> many0 p i = POk l r -> many p l i r.
Proof. apply many0_n_ok. Qed.

Lemma many_run {A} (p : nparser A) l i r : many p l i r ->
  forall n, (length i < n)%nat -> many0_n n p i = POk l r.
Proof.
  induction 1 as [i E|a l i i' r E L _ IH]; intros [|n] H; try lia; cbn; rewrite E; [reflexivity|].
  destruct (Nat.eqb_spec (length i') (length i)); [lia|]. rewrite IH by lia. reflexivity.
Qed.

Lemma many0_run {A} (p : nparser A) l i r : many p l i r -> many0 p i = POk l r.
Proof. intros H. apply (many_run H). lia. Qed.

Lemma many1_ok {A} (p : nparser A) l i r : shrinks p -> many1 p i = POk l r ->
  exists a l' i', l = a :: l' /\ p i = POk a i' /\ many p l' i' r.
Proof.
  intros S H. unfold many1 in H. apply pbind_ok in H as (a & i' & H1 & H2).
  apply pmap_ok in H2 as (l' & H2 & ->). apply many0_ok in H2; eauto 6.
Qed.

Lemma many1_run {A} (p : nparser A) a l i i' r : p i = POk a i' -> many p l i' r ->
  many1 p i = POk (a :: l) r.
Proof.
  intros H M. unfold many1. rewrite (pbind_run _ H). unfold pmap.
  erewrite pbind_run; [reflexivity|]. now apply many0_run.
Qed.

Lemma many1_err {A} (p : nparser A) i : p i = PErr -> many1 p i = PErr.
Proof. apply pbind_err. Qed.

(** ** No exhausted bound, for inputs shorter than [L] *)
Definition nofuel {A} (L : nat) (p : nparser A) : Prop :=
  forall i, (length i < L)%nat -> p i <> PFuel.

Lemma nf_pbind {A B} L (p : nparser A) (f : A -> nparser B) :
  nofuel L p -> shrinks p -> (forall a, nofuel L (f a)) -> nofuel L (pbind p f).
Proof.
  intros N S F i H. unfold pbind. destruct (p i) eqn:E; try discriminate.
  - apply F. apply S in E. lia.
  - exfalso. now apply (N i).
Qed.

Lemma nf_pret {A} L (a : A) : nofuel L (pret a).
Proof. intros i _. discriminate. Qed.

Lemma nf_pmap {A B} L (p : nparser A) (f : A -> B) : nofuel L p -> shrinks p -> nofuel L (pmap p f).
Proof. intros. apply nf_pbind; auto. intros. apply nf_pret. Qed.
Lemma nf_pair {A B} L (p : nparser A) (q : nparser B) :
  nofuel L p -> shrinks p -> nofuel L q -> shrinks q -> nofuel L (pair p q).
Proof. intros. unfold pair. repeat (apply nf_pbind; auto; intros). apply nf_pret. Qed.
Lemma nf_preceded {A B} L (p : nparser A) (q : nparser B) :
  nofuel L p -> shrinks p -> nofuel L q -> nofuel L (preceded p q).
Proof. intros. apply nf_pbind; auto. Qed.
Lemma nf_terminated {A B} L (p : nparser A) (q : nparser B) :
  nofuel L p -> shrinks p -> nofuel L q -> shrinks q -> nofuel L (terminated p q).
Proof. intros. unfold terminated. repeat (apply nf_pbind; auto; intros). apply nf_pret. Qed.
Lemma nf_delimited {A B C} L (p : nparser A) (q : nparser B) (s : nparser C) :
  nofuel L p -> shrinks p -> nofuel L q -> shrinks q -> nofuel L s -> shrinks s ->
  nofuel L (delimited p q s).
Proof. intros. apply nf_preceded; auto. apply nf_terminated; auto. Qed.
Lemma nf_opt {A} L (p : nparser A) : nofuel L p -> nofuel L (opt p).
Proof. intros N i H. unfold opt. specialize (N i H). destruct (p i); congruence. Qed.
Lemma nf_peek {A} L (p : nparser A) : nofuel L p -> nofuel L (peek p).
Proof. intros N i H. unfold peek. specialize (N i H). destruct (p i); congruence. Qed.
Lemma nf_recognize {A} L (p : nparser A) : nofuel L p -> nofuel L (recognize p).
Proof. intros N i H. unfold recognize. specialize (N i H). destruct (p i); congruence. Qed.
Lemma nf_verify {A} L (p : nparser A) f : nofuel L p -> nofuel L (verify p f).
Proof.
  intros N i H. unfold verify. specialize (N i H). destruct (p i); try congruence.
  destruct (f a); congruence.
Qed.
Lemma nf_por {A} L (p q : nparser A) : nofuel L p -> nofuel L q -> nofuel L (por p q).
Proof. intros N M i H. unfold por. specialize (N i H). specialize (M i H). destruct (p i); congruence. Qed.
Lemma nf_pfail {A} L : nofuel L (@pfail A).
Proof. intros i _. discriminate. Qed.
Lemma nf_tag L s : nofuel L (tag s).
Proof. intros i _. unfold tag. destruct (strip _ i); discriminate. Qed.
Lemma nf_tw0 L f : nofuel L (take_while0 f).
Proof. intros i _. unfold take_while0. destruct (span f i). discriminate. Qed.
Lemma nf_tw1 L f : nofuel L (take_while1 f).
Proof. intros i _. unfold take_while1. destruct (span f i) as [[|] ]; discriminate. Qed.
Lemma nf_one_of L s : nofuel L (one_of s).
Proof. intros [|c i] _; cbn; [discriminate|]. destruct (existsb _ _); discriminate. Qed.

Lemma nf_take_until L s : nofuel L (take_until s).
Proof.
  intros i _. induction i as [|c i IH]; cbn.
  - destruct (strip _ _); discriminate.
  - destruct (strip _ _); [discriminate|]. destruct (take_until s i); congruence.
Qed.

Lemma nf_not_line_ending L : nofuel L not_line_ending.
Proof.
  intros i _. unfold not_line_ending. destruct (span _ i) as [a [|c [|d r]]]; [discriminate| |].
  - destruct (Ascii.eqb c cr); discriminate.
  - destruct (Ascii.eqb c cr); [destruct (Ascii.eqb d lf)|]; discriminate.
Qed.

Lemma nf_line_ending L : nofuel L line_ending.
Proof.
  intros [|c [|d r]] _; cbn; [discriminate| |].
  - destruct (Ascii.eqb c lf); [discriminate|]. destruct (Ascii.eqb c cr); discriminate.
  - destruct (Ascii.eqb c lf); [discriminate|]. destruct (Ascii.eqb c cr); [|discriminate].
    destruct (Ascii.eqb d lf); discriminate.
Qed.

Lemma nf_many0 {A} L (p : nparser A) : nofuel L p -> shrinks p -> nofuel L (many0 p).
Proof.
  intros N S i H. unfold many0.
  assert (G : forall n j, (length j < L)%nat -> (length j < n)%nat -> many0_n n p j <> PFuel).
  { induction n as [|n IH]; intros j Hj Hn; [lia|]. cbn. specialize (N j Hj).
    destruct (p j) as [a r| |] eqn:E; try congruence.
    destruct (Nat.eqb_spec (length r) (length j)); [discriminate|].
    apply S in E. specialize (IH r ltac:(lia) ltac:(lia)). destruct (many0_n n p r); congruence. }
  apply G; lia.
Qed.

Lemma nf_many1 {A} L (p : nparser A) : nofuel L p -> shrinks p -> nofuel L (many1 p).
Proof.
  intros N S. unfold many1. apply nf_pbind; auto. intros a.
  assert (S0 : shrinks (many0 p)).
  { intros i l r H. apply many0_ok in H; auto. induction H; lia. }
  apply nf_pmap; auto. now apply nf_many0.
Qed.

Lemma nf_separated {A B} L (s : nparser B) (p : nparser A) :
  nofuel L p -> shrinks p -> nofuel L s -> shrinks s -> nofuel L (separated_list1 s p).
Proof.
  intros N S N2 S2. unfold separated_list1. apply nf_pbind; auto. intros a.
  assert (S1 : shrinks (preceded s p)).
  { intros i l r H. apply preceded_ok in H as (x & i' & H1 & H2). apply S2 in H1. apply S in H2. lia. }
  assert (S0 : shrinks (many0 (preceded s p))).
  { intros i l r H. apply many0_ok in H; auto. induction H; lia. }
  apply nf_pmap; auto. apply nf_many0; auto. now apply nf_preceded.
Qed.
