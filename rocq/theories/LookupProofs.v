(** C110: the names that the generator looks up. *)
From Verif Require Import Base RustTypes Nom NomFacts Keyword Ast ParserModel SpecGrammar SpecParse ConstProofs
  CaseModel RustAst GenModel SpecGen GenFacts GenTotal LookupModel SpecLookup.
Set Implicit Arguments.
Unset Strict Implicit.
Local Open Scope list_scope.
Local Open Scope Z_scope.

(** ** The loops *)
Section Loops.
  Context {A B C : Type} (f : A -> gres B * Z).

  Lemma gmap_fst l : fst (l_gmap f l) = gmap (fun a => fst (f a)) l.
  Proof.
    induction l as [|a l IH]; [easy|]. cbn [l_gmap gmap]. destruct (f a) as [[b|e| |] m]; cbn [fst gbind]; try easy.
    rewrite <- IH. now destruct (l_gmap f l).
  Qed.

  (** what the loop gives, up to the values *)
  Lemma gmap_fuel (g : A -> gres C) l :
    (forall a, match fst (f a), g a with
               | GOk _, GOk _ | GErr _, GErr _ | GPanic, GPanic | GFuel, GFuel => True | _, _ => False end) ->
    gmap g l <> GFuel -> fst (l_gmap f l) <> GFuel.
  Proof.
    intros H N. rewrite gmap_fst. intros E. apply N. clear N. revert E.
    induction l as [|a l IH]; [easy|]. cbn [gmap]. specialize (H a).
    destruct (fst (f a)), (g a); try easy. cbn [gbind].
    destruct (gmap (fun a => fst (f a)) l); try easy. now rewrite IH.
  Qed.

  Lemma gmap_count (w : A -> Z) l :
    (forall a, In a l -> 0 <= w a) ->
    (forall a, In a l -> fst (f a) <> GFuel -> snd (f a) <= w a) ->
    fst (l_gmap f l) <> GFuel -> snd (l_gmap f l) <= fold_right (fun a s => w a + s) 0 l.
  Proof.
    induction l as [|a l IH]; intros P W N; [easy|]. cbn [l_gmap fold_right] in *.
    assert (Q : 0 <= fold_right (fun a s => w a + s) 0 l).
    { clear - P. induction l as [|b l IH]; [easy|]. cbn [fold_right]. specialize (P b ltac:(cbn; auto)) as Pb.
      assert (0 <= fold_right (fun a s => w a + s) 0 l) by (apply IH; intros c H; apply P; cbn in *; tauto). lia. }
    specialize (W a ltac:(cbn; auto)) as Wa. specialize (P a ltac:(cbn; auto)) as Pa.
    destruct (f a) as [[b|e| |] m]; cbn [fst snd] in *;
      [|specialize (Wa ltac:(easy)); lia|specialize (Wa ltac:(easy)); lia|easy].
    assert (I : fst (l_gmap f l) <> GFuel -> snd (l_gmap f l) <= fold_right (fun a s => w a + s) 0 l).
    { apply IH; intros c H; [apply P|apply W]; now right. }
    destruct (l_gmap f l) as [[bs|e| |] k]; cbn [fst snd gbind] in *; try easy;
      specialize (Wa ltac:(easy)); specialize (I ltac:(easy)); lia.
  Qed.
End Loops.

(** ** One name *)
Section Name.
  Variables (cfg : config) (ds : list definition) (k : intkind).
  Let cx := ctx cfg ds.

  Lemma l_name_S n x : l_resolve_name cx (S n) k x =
    let '(r, m) := match assoc String.eqb x (const_defs ds) with
                   | Some v => l_resolve_value cx n k v
                   | None => (GErr (GNotFoundIdentifier x), 0)
                   end in
    match r with
    | GErr _ => let '(r, j) := match assoc String.eqb x (member_defs ds) with
                               | Some v => l_resolve_value cx n k v
                               | None => (GErr (GNotFoundIdentifier x), 0)
                               end in (r, 1 + m + j)
    | r => (r, 1 + m)
    end.
  Proof. cbn [l_resolve_name]. unfold cx at 2. cbn [typedefs ctx]. now rewrite find_member_assoc. Qed.

  Lemma name_fst n : forall x, fst (l_resolve_name cx n k x) = resolve_name cx n k x.
  Proof.
    induction n as [|n IH]; intros x; [easy|]. unfold cx. rewrite resolve_name_S. fold cx. rewrite l_name_S.
    assert (V : forall v, fst (l_resolve_value cx n k v) = resolve_value cx n k v) by (intros [c|y]; cbn; auto).
    destruct (assoc String.eqb x (const_defs ds)) as [v|].
    - rewrite <- V. destruct (l_resolve_value cx n k v) as [[z|e| |] m]; cbn [fst]; try easy.
      destruct (assoc String.eqb x (member_defs ds)) as [u|]; [|easy]. rewrite <- V.
      now destruct (l_resolve_value cx n k u).
    - destruct (assoc String.eqb x (member_defs ds)) as [u|]; [|easy]. rewrite <- V.
      now destruct (l_resolve_value cx n k u).
  Qed.
  Lemma value_fst n v : fst (l_resolve_value cx n k v) = resolve_value cx n k v.
  Proof. destruct v; cbn; [easy|apply name_fst]. Qed.

  Lemma name_mono1 n : forall x, resolve_name cx n k x <> GFuel ->
    l_resolve_name cx (S n) k x = l_resolve_name cx n k x.
  Proof.
    induction n as [|n IH]; intros x H; [now cbn in H|].
    rewrite (l_name_S (S n)). rewrite <- name_fst in H. rewrite l_name_S in H |- *.
    assert (V : forall v, fst (l_resolve_value cx n k v) <> GFuel ->
                l_resolve_value cx (S n) k v = l_resolve_value cx n k v).
    { intros [c|y]; [easy|]. cbn [l_resolve_value]. rewrite name_fst. apply IH. }
    destruct (assoc String.eqb x (const_defs ds)) as [v|].
    - destruct (l_resolve_value cx n k v) as [[z|e| |] m] eqn:E; try easy;
        rewrite V by (rewrite E; easy); rewrite E; try easy.
      destruct (assoc String.eqb x (member_defs ds)) as [u|]; [|easy].
      rewrite V; [easy|]. now destruct (l_resolve_value cx n k u).
    - destruct (assoc String.eqb x (member_defs ds)) as [u|]; [|easy].
      rewrite V; [easy|]. now destruct (l_resolve_value cx n k u).
  Qed.

  (** the names whose resolution ends within the bound *)
  Definition ends (n : nat) (x : string) : bool := match resolve_name cx n k x with GFuel => false | _ => true end.
  Lemma ends_iff n x : ends n x = true <-> resolve_name cx n k x <> GFuel.
  Proof. unfold ends. destruct (resolve_name cx n k x); easy. Qed.
  Lemma ends_S n x : ends n x = true -> ends (S n) x = true.
  Proof. rewrite !ends_iff. intros H. unfold cx in *. now rewrite resolve_name_mono1. Qed.

  Definition all (n : nat) := Z.of_nat (length (filter (ends n) (value_names ds))).
  Definition dbl (n : nat) := Z.of_nat (length (filter (ends n) (double_names ds))).

  Lemma filter_le (p q : string -> bool) l : (forall x, p x = true -> q x = true) ->
    (length (filter p l) <= length (filter q l))%nat.
  Proof.
    intros H. induction l as [|a l IH]; [easy|]. cbn [filter]. specialize (H a).
    destruct (p a), (q a); cbn [length]; try lia; now specialize (H eq_refl).
  Qed.
  Lemma filter_lt (p q : string -> bool) l x : (forall x, p x = true -> q x = true) ->
    In x l -> p x = false -> q x = true -> (length (filter p l) < length (filter q l))%nat.
  Proof.
    intros H I P Q. induction l as [|a l IH]; [easy|]. cbn [filter].
    destruct I as [->|I].
    - rewrite P, Q. cbn [length]. pose proof (@filter_le p q l H). lia.
    - specialize (IH I). specialize (H a). destruct (p a), (q a); cbn [length]; try lia; now specialize (H eq_refl).
  Qed.

  Lemma name_named x v : assoc String.eqb x (const_defs ds) = Some v \/ assoc String.eqb x (member_defs ds) = Some v ->
    In x (value_names ds).
  Proof.
    intros H. apply nodup_In, in_or_app. destruct H as [H|H]; [left|right];
      apply assoc_first, first_in in H; change x with (fst (x, v)); now apply in_map.
  Qed.
  Lemma name_doubled x v u : assoc String.eqb x (const_defs ds) = Some v -> assoc String.eqb x (member_defs ds) = Some u ->
    In x (double_names ds).
  Proof.
    intros H K. apply filter_In. split; [eapply name_named; eauto|].
    apply andb_true_intro; split; apply existsb_exists; exists x; (split; [|apply String.eqb_refl]);
      [apply assoc_first, first_in in H; change x with (fst (x, v))
      |apply assoc_first, first_in in K; change x with (fst (x, u))]; now apply in_map.
  Qed.

  Lemma name_count n : forall x, resolve_name cx n k x <> GFuel ->
    snd (l_resolve_name cx n k x) <= 2 ^ dbl n * (all n + 1).
  Proof.
    induction n as [|n IH]; intros x H; [now cbn in H|].
    assert (A : all n <= all (S n)) by (apply inj_le, filter_le, ends_S).
    assert (D : dbl n <= dbl (S n)) by (apply inj_le, filter_le, ends_S).
    assert (A0 : 0 <= all n) by (unfold all; lia). assert (D0 : 0 <= dbl n) by (unfold dbl; lia).
    assert (P0 : 1 <= 2 ^ dbl n) by (apply (Z.pow_le_mono_r 2 0 (dbl n)); lia).
    assert (P1 : 2 ^ dbl n <= 2 ^ dbl (S n)) by (apply Z.pow_le_mono_r; lia).
    destruct (ends n x) eqn:E.
    { rewrite name_mono1 by (now apply ends_iff). etransitivity; [apply IH; now apply ends_iff|]. nia. }
    assert (V : forall v, fst (l_resolve_value cx n k v) <> GFuel -> 0 <= snd (l_resolve_value cx n k v) <= 2 ^ dbl n * (all n + 1)).
    { assert (NN : forall m y, 0 <= snd (l_resolve_name cx m k y)).
      { clear. induction m as [|m IH]; intros y; [easy|]. rewrite l_name_S.
        assert (V : forall v, 0 <= snd (l_resolve_value cx m k v)) by (intros [c|z]; cbn; auto; lia).
        assert (O : forall o : option value, 0 <= snd (match o with Some v => l_resolve_value cx m k v | None => (GErr (GNotFoundIdentifier y), 0) end)).
        { intros [v|]; [apply V|cbn; lia]. }
        pose proof (O (assoc String.eqb y (const_defs ds))) as O1. pose proof (O (assoc String.eqb y (member_defs ds))) as O2.
        destruct (match assoc String.eqb y (const_defs ds) with Some _ => _ | None => _ end) as [[z|e| |] p];
        destruct (match assoc String.eqb y (member_defs ds) with Some _ => _ | None => _ end) as [r q]; cbn [snd] in *; lia. }
      intros [c|y]; cbn [l_resolve_value snd fst]; [nia|]. rewrite name_fst. intros F. split; [apply NN|now apply IH]. }
    assert (IN : forall v, assoc String.eqb x (const_defs ds) = Some v \/ assoc String.eqb x (member_defs ds) = Some v -> all n + 1 <= all (S n)).
    { intros v I. apply name_named in I. unfold all. pose proof (@filter_lt (ends n) (ends (S n)) _ x (@ends_S n) I E). rewrite ends_iff in H0. specialize (H0 H). lia. }
    assert (DN : forall v u, assoc String.eqb x (const_defs ds) = Some v -> assoc String.eqb x (member_defs ds) = Some u -> dbl n + 1 <= dbl (S n)).
    { intros v u I J. pose proof (name_doubled I J) as K. unfold dbl. pose proof (@filter_lt (ends n) (ends (S n)) _ x (@ends_S n) K E). rewrite ends_iff in H0. specialize (H0 H). lia. }
    rewrite <- name_fst in H. rewrite l_name_S in H |- *.
    destruct (assoc String.eqb x (const_defs ds)) as [v|] eqn:C.
    - specialize (IN v (or_introl eq_refl)). specialize (V v) as Vv.
      destruct (l_resolve_value cx n k v) as [[z|e| |] m]; cbn [fst snd] in *;
        [specialize (Vv ltac:(easy)); nia| |specialize (Vv ltac:(easy)); nia|easy].
      specialize (Vv ltac:(easy)).
      destruct (assoc String.eqb x (member_defs ds)) as [u|] eqn:M; [|cbn [snd]; nia].
      specialize (DN v u eq_refl eq_refl). specialize (V u) as Vu.
      assert (P2 : 2 * 2 ^ dbl n <= 2 ^ dbl (S n)).
      { rewrite <- Z.pow_succ_r by lia. apply Z.pow_le_mono_r; lia. }
      destruct (l_resolve_value cx n k u) as [r j]; cbn [fst snd] in *. specialize (Vu H). nia.
    - destruct (assoc String.eqb x (member_defs ds)) as [u|] eqn:M; [|cbn [snd]; nia].
      specialize (IN u (or_intror eq_refl)). specialize (V u) as Vu.
      destruct (l_resolve_value cx n k u) as [r j]; cbn [fst snd] in *. specialize (Vu H). nia.
  Qed.

  Definition limit := 2 ^ Z.of_nat (length (double_names ds)) * (Z.of_nat (length (value_names ds)) + 1).
  Lemma filter_len (p : string -> bool) l : (length (filter p l) <= length l)%nat.
  Proof. induction l as [|a l IH]; [easy|]. cbn [filter]. destruct (p a); cbn [length]; lia. Qed.
  Lemma limit_pos : 1 <= limit.
  Proof.
    unfold limit. assert (1 <= 2 ^ Z.of_nat (length (double_names ds))) by (apply (Z.pow_le_mono_r 2 0); lia). nia.
  Qed.
  Lemma value_count_le n v : resolve_value cx n k v <> GFuel -> snd (l_resolve_value cx n k v) <= limit.
  Proof.
    pose proof limit_pos. destruct v as [c|x]; cbn [resolve_value l_resolve_value snd]; [lia|]. intros H1.
    etransitivity; [now apply name_count|]. unfold limit, all, dbl.
    apply Z.mul_le_mono_nonneg; [apply Z.pow_nonneg; lia|apply Z.pow_le_mono_r; [lia|]|lia|].
    - apply inj_le, filter_len.
    - apply Zplus_le_compat_r, inj_le, filter_len.
  Qed.
End Name.

(** ** The whole generator *)
Section All.
  Variables (cfg : config) (ds : list definition) (n : nat).
  Let cx := ctx cfg ds.

  Lemma fold_const {A} (f : A -> nat) (c : Z) l :
    fold_right (fun a s => Z.of_nat (f a) * c + s) 0 l = Z.of_nat (list_sum (map f l)) * c.
  Proof. induction l as [|a l IH]; cbn [fold_right map list_sum]; [easy|]. rewrite IH. change (fold_right Init.Nat.add 0%nat (map f l)) with (list_sum (map f l)). lia. Qed.
  Lemma sum_ones {A} (l : list A) : list_sum (map (fun _ => 1%nat) l) = length l.
  Proof. induction l; cbn; auto. Qed.

  Lemma values_count k l : fst (l_gmap (l_resolve_value cx n k) l) <> GFuel ->
    snd (l_gmap (l_resolve_value cx n k) l) <= Z.of_nat (length l) * limit ds.
  Proof.
    intros H. etransitivity; [apply gmap_count with (w := fun _ => Z.of_nat 1 * limit ds); [| |exact H]|].
    - intros a _. pose proof (@limit_pos ds). lia.
    - intros a _ F. unfold cx in *. rewrite value_fst in F. rewrite Z.mul_1_l. now apply value_count_le.
    - rewrite (fold_const (fun _ => 1%nat)), sum_ones. lia.
  Qed.
  Lemma enum_count l : fst (l_enum cx n l) <> GFuel -> snd (l_enum cx n l) <= Z.of_nat (length l) * limit ds.
  Proof.
    intros H. unfold l_enum in *. etransitivity; [apply gmap_count with (w := fun _ => Z.of_nat 1 * limit ds); [| |exact H]|].
    - intros a _. pose proof (@limit_pos ds). lia.
    - intros a _ F. unfold cx in *. rewrite value_fst in F. rewrite Z.mul_1_l. now apply value_count_le.
    - rewrite (fold_const (fun _ => 1%nat)), sum_ones. lia.
  Qed.

  (** what is looked up ends when the generation ends *)
  Lemma enum_runs x y l : type_token_of cx n (x, TdEnum y l) <> GFuel -> fst (l_enum cx n l) <> GFuel.
  Proof.
    intros H. cbn [type_token_of] in H. unfold l_enum.
    eapply gmap_fuel with (g := fun a => z <~ resolve_value cx n KI32 (as_value a);; GOk (z, as_name a)).
    - intros a. unfold cx. rewrite value_fst. now destruct (resolve_value _ n KI32 (as_value a)).
    - intros E. apply H. unfold convert_enum_token. now rewrite E.
  Qed.
  Lemma union_runs x y u : type_token_of cx n (x, TdUnion y u) <> GFuel -> fst (l_union cx n x u) <> GFuel.
  Proof.
    destruct u as [cond specs dflt]. cbn [l_union type_token_of]. unfold convert_union_token. intros H.
    destruct (upper_camel_case_ident x) as [id|e| |]; try easy.
    destruct cond as [ty z| | | | | | |]; try easy.
    assert (G : gmap (fun s => match s with CaseSpec vs d => gmap (fun v => z <~ resolve_value cx n KU32 v;; GOk (z, d, v)) vs end) specs <> GFuel ->
                fst (l_gmap (fun s => match s with CaseSpec vs _ => l_gmap (l_resolve_value cx n KU32) vs end) specs) <> GFuel).
    { apply gmap_fuel. intros [vs d]. rewrite gmap_fst. induction vs as [|v vs IH]; [easy|]. cbn [gmap].
      unfold cx at 1. rewrite value_fst. fold cx. destruct (resolve_value cx n KU32 v); cbn [gbind]; try easy.
      destruct (gmap (fun a => fst (l_resolve_value cx n KU32 a)) vs), (gmap (fun v => z <~ resolve_value cx n KU32 v;; GOk (z, d, v)) vs); easy. }
    destruct ty; try easy; apply G; intros E; apply H; cbn [gbind]; now rewrite E.
  Qed.
  Lemma union_count x u : fst (l_union cx n x u) <> GFuel ->
    snd (l_union cx n x u) <= Z.of_nat (uses (TdUnion x u)) * limit ds.
  Proof.
    destruct u as [cond specs dflt]. cbn [l_union uses]. intros H.
    assert (Q : 0 <= Z.of_nat (list_sum (map (fun s => match s with CaseSpec vs _ => length vs end) specs)) * limit ds).
    { pose proof (@limit_pos ds). nia. }
    destruct (upper_camel_case_ident x) as [id|e| |]; try exact Q.
    destruct cond as [ty z| | | | | | |]; try exact Q.
    destruct ty; try exact Q; rewrite <- fold_const; (apply gmap_count; [| |exact H]);
      intros [vs d] _; (apply values_count || (pose proof (@limit_pos ds); lia)).
  Qed.

  Lemma type_count t : type_token_of cx n t <> GFuel -> snd (l_type_token_of cx n t) <= Z.of_nat (uses (snd t)) * limit ds.
  Proof.
    destruct t as [x t]. cbn [l_type_token_of snd fst]. intros H. destruct t as [d|y l|y l|y u].
    - cbn; lia.
    - apply enum_count. exact (enum_runs H).
    - cbn; lia.
    - apply (union_count (union_runs H)).
  Qed.

  Lemma lookups_eq : lookups n cfg ds = match constants_token cx with GOk _ => snd (l_types_token cx n) | _ => 0 end.
  Proof. unfold lookups. now rewrite setup_spec. Qed.

  Lemma lookups_bounded : gen_code n cfg ds <> GFuel -> lookups n cfg ds <= Z.of_nat (value_uses ds) * limit ds.
  Proof.
    rewrite lookups_eq, gen_code_eq. fold cx. pose proof (@limit_pos ds) as LP. destruct (constants_token cx); cbn [gbind]; try (intros _; nia).
    intros H. unfold l_types_token, value_uses. rewrite <- fold_const. apply gmap_count.
    - intros t _. lia.
    - intros t _. apply type_count.
    - rewrite gmap_fst. intros E. apply H.
      assert (F : gmap (type_token_of cx n) (typedefs cx) = GFuel) by exact E.
      unfold types_token. now rewrite F.
  Qed.
End All.

(** ** The bound of the model does not matter *)
Lemma gmap_agree {A B} (f g : A -> gres B * Z) l :
  (forall a, fst (f a) <> GFuel -> g a = f a) -> fst (l_gmap f l) <> GFuel -> l_gmap g l = l_gmap f l.
Proof.
  intros H. induction l as [|a l IH]; [easy|]. cbn [l_gmap]. intros N. specialize (H a).
  destruct (f a) as [[b|e| |] m]; cbn [fst] in *; try easy; rewrite H by easy; try easy.
  rewrite IH; [easy|]. destruct (l_gmap f l) as [[bs|e| |] k]; easy.
Qed.
Section Settled.
  Variables (cfg : config) (ds : list definition) (n m : nat).
  Hypothesis L : (n <= m)%nat.
  Let cx := ctx cfg ds.

  Lemma value_agree k v : fst (l_resolve_value cx n k v) <> GFuel -> l_resolve_value cx m k v = l_resolve_value cx n k v.
  Proof.
    destruct v as [c|x]; [easy|]. cbn [l_resolve_value]. unfold cx. rewrite name_fst.
    induction L as [|m' L' IH]; intros H; [easy|]. rewrite name_mono1; [now apply IH|].
    rewrite (resolve_name_mono L' H). exact H.
  Qed.
  Lemma type_agree t : fst (l_type_token_of cx n t) <> GFuel -> l_type_token_of cx m t = l_type_token_of cx n t.
  Proof.
    destruct t as [x t]. cbn [l_type_token_of fst]. intros H. unfold l_type_token_of.
    f_equal; [exact (item_mono L H)|]. cbn [snd fst]. destruct t as [d|y l|y l|y u]; [easy| |easy|].
    - apply f_equal, gmap_agree; [|exact (enum_runs H)]. intros a. apply value_agree.
    - apply f_equal. pose proof (union_runs H) as R. fold cx in R. destruct u as [cond specs dflt]. cbn [l_union] in *.
      destruct (upper_camel_case_ident x) as [id|e| |]; try easy.
      destruct cond as [ty z| | | | | | |]; try easy.
      destruct ty; try easy; (apply gmap_agree; [|exact R]); intros [vs d] F; (apply gmap_agree; [|exact F]); intros v; apply value_agree.
  Qed.
  Lemma lookups_settled : gen_code n cfg ds <> GFuel -> lookups m cfg ds = lookups n cfg ds.
  Proof.
    rewrite !lookups_eq, gen_code_eq. fold cx. destruct (constants_token cx); cbn [gbind]; try easy.
    intros H. unfold l_types_token. apply f_equal, gmap_agree; [intros t; apply type_agree|].
    rewrite gmap_fst. intros E. apply H.
    assert (F : gmap (type_token_of cx n) (typedefs cx) = GFuel) by exact E.
    unfold types_token. now rewrite F.
  Qed.
End Settled.

(** ** The ladder *)
Lemma long_length i : String.length (long_name i) = S i.
Proof. induction i; cbn [long_name String.length]; auto. Qed.
Lemma long_inj i j : long_name i = long_name j -> i = j.
Proof. intros H. apply (f_equal String.length) in H. rewrite !long_length in H. lia. Qed.
Lemma long_ident i : ident_new (chars (long_name i)) = GOk (long_name i).
Proof.
  unfold ident_new. replace (ident_text (chars (long_name i))) with true.
  - now rewrite string_of_list_ascii_of_string.
  - symmetry. destruct i as [|i]; [easy|]. cbn [long_name chars list_ascii_of_string ident_text].
    apply andb_true_intro. split; [easy|]. induction i as [|i IH]; [easy|]. cbn [long_name list_ascii_of_string forallb]. now rewrite IH.
Qed.

Definition rungs (a d : nat) : list (string * value) := map (fun i => (long_name i, VIdent (long_name (S i)))) (seq a d).
Lemma rungs_in i d : forall a, assoc String.eqb (long_name i) (rungs a d) =
  if (Nat.leb a i && Nat.ltb i (a + d))%bool then Some (VIdent (long_name (S i))) else None.
Proof.
  induction d as [|d IH]; intros a; cbn [rungs seq map assoc].
  - destruct (Nat.leb_spec a i), (Nat.ltb_spec i (a + 0)); cbn [andb]; try easy; lia.
  - destruct (String.eqb_spec (long_name i) (long_name a)) as [E|E].
    + apply long_inj in E as ->. destruct (Nat.leb_spec a a), (Nat.ltb_spec a (a + S d)); cbn [andb]; try easy; lia.
    + specialize (IH (S a)). unfold rungs in IH. rewrite IH. assert (a <> i) by congruence.
      destruct (Nat.leb_spec (S a) i), (Nat.ltb_spec i (S a + d)), (Nat.leb_spec a i), (Nat.ltb_spec i (a + S d)); cbn [andb]; try easy; lia.
Qed.
Lemma ladder_consts d : const_defs (ladder d) = rungs 0 d.
Proof.
  unfold ladder, const_defs. rewrite flat_map_app. cbn [flat_map const_of app]. rewrite app_nil_r.
  unfold rungs. generalize 0%nat. induction d as [|d IH]; intros a; [easy|]. cbn [seq map flat_map const_of as_name as_value app]. now rewrite IH.
Qed.
Lemma ladder_types d : type_defs (ladder d) =
  [("e"%string, TdEnum "e" (map (fun i => Assign (long_name i) (VIdent (long_name (S i)))) (seq 0 d)))].
Proof.
  unfold ladder, type_defs. rewrite flat_map_app. cbn [flat_map type_of typedef_name app].
  replace (flat_map type_of (map _ (seq 0 d))) with (@nil (string * typedef)); [easy|].
  generalize 0%nat. induction d as [|d IH]; intros a; [easy|]. cbn [seq map flat_map type_of app]. apply IH.
Qed.
Lemma ladder_members d : member_defs (ladder d) = rungs 0 d.
Proof.
  unfold member_defs. rewrite ladder_types. cbn [flat_map snd members app]. rewrite app_nil_r, map_map. reflexivity.
Qed.
Lemma ladder_size d : value_count (ladder d) = (2 * d)%nat.
Proof.
  unfold value_count, value_uses. rewrite ladder_consts, ladder_types. cbn [map snd uses list_sum fold_right].
  unfold rungs. rewrite !map_length, !seq_length. lia.
Qed.

Lemma ladder_name cfg k d : forall j i n, (i + j = d)%nat -> (j < n)%nat ->
  l_resolve_name (ctx cfg (ladder d)) n k (long_name i) = (GErr (GNotFoundIdentifier (long_name d)), 2 ^ Z.of_nat (S j) - 1).
Proof.
  induction j as [|j IH]; intros i [|n] E L; try lia; rewrite l_name_S, ladder_consts, ladder_members, rungs_in.
  - replace i with d by lia. destruct (Nat.leb_spec 0 d), (Nat.ltb_spec d (0 + d)); try lia. reflexivity.
  - destruct (Nat.leb_spec 0 i), (Nat.ltb_spec i (0 + d)); try lia. cbn [andb l_resolve_value].
    rewrite (IH (S i) n) by lia. f_equal. rewrite (Nat2Z.inj_succ (S j)), Z.pow_succ_r by lia. lia.
Qed.

Lemma ladder_constants cfg d : exists l, constants_token (ctx cfg (ladder d)) = GOk l.
Proof.
  unfold constants_token. cbn [constants ctx]. rewrite ladder_consts. unfold rungs. generalize 0%nat.
  induction d as [|d IH]; intros a; [now exists []|]. cbn [seq map gmap]. destruct (IH (S a)) as [l E].
  cbn [constant_token convert_value_token]. rewrite !long_ident. cbn [gbind]. rewrite E. cbn [gbind]. eauto.
Qed.

Lemma ladder_lookups n cfg d : (1 <= d)%nat -> (d <= n)%nat ->
  gen_code n cfg (ladder d) = GErr (GNotFoundIdentifier (long_name d)) /\
  lookups n cfg (ladder d) = 2 ^ Z.of_nat d - 1.
Proof.
  intros D L. destruct (ladder_constants cfg d) as [l E]. rewrite lookups_eq, gen_code_eq, E. cbn [gbind].
  destruct d as [|d]; [lia|].
  assert (T : typedefs (ctx cfg (ladder (S d))) =
    cons ("e"%string, TdEnum "e" (Assign (long_name 0) (VIdent (long_name 1)) ::
       map (fun i => Assign (long_name i) (VIdent (long_name (S i)))) (seq 1 d))) nil) by (cbn [typedefs ctx]; now rewrite ladder_types).
  pose proof (@ladder_name cfg KI32 (S d) d 1%nat n eq_refl L) as N.
  assert (R : resolve_value (ctx cfg (ladder (S d))) n KI32 (VIdent (long_name 1)) = GErr (GNotFoundIdentifier (long_name (S d)))).
  { rewrite <- value_fst. cbn [l_resolve_value]. now rewrite N. }
  assert (Y : type_token_of (ctx cfg (ladder (S d))) n ("e"%string, TdEnum "e" (Assign (long_name 0) (VIdent (long_name 1)) ::
       map (fun i => Assign (long_name i) (VIdent (long_name (S i)))) (seq 1 d))) = GErr (GNotFoundIdentifier (long_name (S d)))).
  { cbn [type_token_of]. unfold convert_enum_token. cbn [gmap as_value]. rewrite R. reflexivity. }
  split.
  - unfold types_token. rewrite T. cbn [gmap]. rewrite Y. reflexivity.
  - unfold l_types_token. rewrite T. cbn [l_gmap]. unfold l_type_token_of at 1. rewrite Y. cbn [snd].
    unfold l_enum. cbn [l_gmap as_value l_resolve_value]. rewrite N. reflexivity.
Qed.
