(** Meaning of generated enums. *)
From Coq Require Import Sorting.Permutation.
From Verif Require Import Base RustTypes SpecXdr SpecTypes XdrFacts Nom NomFacts Ast ParserModel
  SpecGrammar SpecParse ConstProofs CaseModel SpecCase CaseProofs RustAst GenModel SpecGen GenFacts
  GenPanic SpecItems GenLemmas SpecXdl GenSem WireBase.
Set Implicit Arguments.
Unset Strict Implicit.
Local Open Scope list_scope.

Lemma camel_of_iff x y : camel_of x y <-> y = camel x.
Proof.
  split; [|intros ->; apply camel_of_camel]. unfold camel_of, camel. intros H. apply camel_exact in H.
  now rewrite <- H, string_of_list_ascii_of_string.
Qed.
Lemma camel_inj l x y : camel_distinct l -> In x l -> In y l -> camel x = camel y -> x = y.
Proof.
  intros [_ H] hx hy e. apply H with (camel x); try easy; apply camel_of_iff; easy.
Qed.
Lemma camel_nodup l : camel_distinct l -> NoDup (map camel l).
Proof. intros H. apply NoDup_map_in; [apply H|]. intros. now apply camel_inj with l. Qed.

Lemma camel_wp x : good_name x -> camelable x -> wp (upper_camel_case_ident x) (eq (camel x)).
Proof. intros g c. now rewrite camel_ident. Qed.

(** camel names and the Rust words *)
Lemma camel_word x : camelable x -> camel x <> "Self"%string -> bare_ok (camel x).
Proof.
  intros c N. split.
  - intros H. pose proof (camel_start (chars x)) as S.
    assert (E : upper_camel_case (chars x) = chars (camel x)) by (unfold camel; now rewrite list_ascii_of_string_of_list_ascii).
    rewrite E in S. unfold rust_words in H. cbn [In] in H.
    repeat (destruct H as [H|H]; [rewrite <- H in S, N; cbn in S;
      first [now apply N|exfalso; apply S; apply small_spec; reflexivity]|]). destruct H.
  - intros e. unfold camelable in c. rewrite <- (camel_letters (chars x)) in c.
    assert (E : upper_camel_case (chars x) = chars (camel x)) by (unfold camel; now rewrite list_ascii_of_string_of_list_ascii).
    rewrite E, e in c. exact c.
Qed.
Lemma variant_name x : variant_name_ok x -> variant_ok (camel x).
Proof.
  intros (c & h & k). rewrite camel_of_iff in h, k. split; [|congruence]. apply camel_word; congruence.
Qed.
Lemma reserved_word z : variant_ok (reserved_name z).
Proof.
  assert (H : forall y, (forall t, chars y <> chars "_Reserved" ++ t) -> reserved_name z <> y).
  { intros y N e. unfold reserved_name in e. apply (f_equal list_ascii_of_string) in e.
    rewrite list_ascii_of_string_of_list_ascii in e. now apply N with (to_decimal z). }
  repeat split; try (apply H; intros t; discriminate).
  unfold rust_words. cbn [In]. intros K.
  repeat (destruct K as [K|K]; [symmetry in K; revert K; apply H; intros t; discriminate|]). destruct K.
Qed.

Section Values.
  Variables (cfg : config) (ds : list definition).
  Hypothesis G : good_spec ds.
  Let cx := ctx cfg ds.

  Lemma value_wp n k v z : value_is ds v z -> good_value v -> fits k z ->
    wp (resolve_value cx n k v) (eq z).
  Proof.
    intros V g F. destruct (value_resolves cfg (good_spec_values G) V g F) as [_ [N H]].
    destruct (resolve_value cx n k v) as [w|e| |] eqn:r; cbn; try easy.
    - pose proof (@resolve_value_mono cfg ds k v n (max n N)) as M.
      fold cx in M. cbv beta in M. rewrite r in M. specialize (M ltac:(lia) ltac:(easy)). cbv beta in M. fold cx in H. rewrite H in M by lia. congruence.
    - pose proof (@resolve_value_mono cfg ds k v n (max n N)) as M.
      fold cx in M. cbv beta in M. rewrite r in M. specialize (M ltac:(lia) ltac:(easy)). cbv beta in M. fold cx in H. rewrite H in M by lia. congruence.
    - now apply (resolve_value_result r).
  Qed.
End Values.

(** strictly ascending numbers that fill an interval *)
Lemma climbs_reach {A} (key : A -> Z) l : forall s, climbs key s l -> forall d, 
  (forall a, In a l -> key a < d) -> l <> [] -> s + zlen l <= d.
Proof.
  induction l as [|a l IH]; intros s C d B N; [easy|]. inversion C as [|? ? ? h C']; subst.
  unfold zlen in *. cbn [length]. rewrite Nat2Z.inj_succ.
  destruct l as [|b l]; [cbn; specialize (B a (or_introl eq_refl)); lia|].
  enough (key a + 1 + Z.of_nat (length (b :: l)) <= d) by lia.
  apply IH; [easy| |easy]. intros c Hc. apply B. now right.
Qed.
Lemma climbs_dense {A} (key : A -> Z) l : forall s, climbs key s l ->
  (forall a, In a l -> key a < s + zlen l) -> map key l = zrange s (s + zlen l).
Proof.
  induction l as [|a l IH]; intros s C B; [cbn; now rewrite zrange_nil by (unfold zlen; cbn; lia)|].
  inversion C as [|? ? ? h C']; subst.
  assert (L : zlen (a :: l) = 1 + zlen l) by (unfold zlen; cbn [length]; lia). rewrite L in *.
  assert (E : key a = s).
  { destruct l as [|b l]; [specialize (B a (or_introl eq_refl)); unfold zlen in *; cbn in *; lia|].
    assert (key a + 1 + zlen (b :: l) <= s + (1 + zlen (b :: l))); [|lia].
    apply (climbs_reach C'); [|easy]. intros c Hc. apply B. now right. }
  subst s. assert (0 <= zlen l) by (unfold zlen; lia).
  rewrite (@zrange_split _ (key a + 1)), zrange_one by lia.
  cbn [map app]. f_equal. rewrite Z.add_assoc. apply IH; [easy|].
  intros b Hb. specialize (B b (or_intror Hb)). lia.
Qed.
Lemma climbs_nodup {A} (key : A -> Z) l s : climbs key s l -> NoDup (map key l) /\ forall a, In a l -> s <= key a.
Proof.
  induction 1 as [|s a l h C [IH1 IH2]]; [split; [constructor|easy]|]. split.
  - cbn. constructor; [|easy]. intros H. apply in_map_iff in H as (b & e & Hb). specialize (IH2 b Hb). lia.
  - intros b [->|Hb]; [easy|]. specialize (IH2 b Hb). lia.
Qed.

Section Enum.
  Variables (cfg : config) (ds : list definition).
  Hypothesis G : good_spec ds.
  Let cx := ctx cfg ds.

  (** what the members become *)
  Definition shown (p : Z * string) : string * Z := (camel (snd p), fst p).

  Definition listed (l : list (Z * string)) : Prop :=
    Forall (fun p => good_name (snd p) /\ variant_name_ok (snd p) /\ - 2 ^ 31 <= fst p < 2 ^ 31 /\
      (overflow_checks cfg = true -> fst p < 2 ^ 31 - 1)) l.

  Lemma succ_wp s z : (overflow_checks cfg = true -> z < (if s : bool then 2 ^ 31 - 1 else 2 ^ 32 - 1)) ->
    z <= (if s then 2 ^ 31 - 1 else 2 ^ 32 - 1) ->
    wp (succ_checked (overflow_checks cfg) s z)
       (fun z' => z' = z + 1 \/ z = if s then 2 ^ 31 - 1 else 2 ^ 32 - 1).
  Proof.
    intros H L. unfold succ_checked. destruct (Z.ltb_spec z (if s then 2 ^ 31 - 1 else 2 ^ 32 - 1)); [now left|].
    destruct (overflow_checks cfg); cbn [wp]; [specialize (H eq_refl); apply Z.lt_nge in H; now apply H|right; apply Z.le_antisymm; easy].
  Qed.

  Lemma enum_values_plain l : enum_complement_index cfg = false -> listed l ->
    forall s, wp (enum_values cx s l) (eq (map shown l)).
  Proof.
    intros ci. induction 1 as [|[e x] l (g & v & r & o) F IH]; intros s; [easy|].
    cbn [enum_values]. change (cx_config cx) with cfg. rewrite ci. cbn [gbind fst snd] in *.
    apply wp_bind with (1 := camel_wp g (proj1 v)). intros ? <-.
    apply wp_bind with (1 := @succ_wp true e o ltac:(cbv iota; lia)). intros s' _.
    apply wp_bind with (1 := IH s'). intros ? <-. reflexivity.
  Qed.

  Definition filled (s : Z) (l : list (Z * string)) (vs : list (string * Z)) : Prop :=
    (exists hi, s <= hi <= 2 ^ 31 /\ map snd vs = zrange s hi /\ (hi = s \/ exists p, In p l /\ fst p + 1 = hi)) /\
    (forall p, In p l -> In (shown p) vs) /\
    (forall p, In p vs -> p = (reserved_name (snd p), snd p) \/ exists q, In q l /\ p = shown q).

  Lemma enum_values_filled l : enum_complement_index cfg = true -> listed l ->
    forall s, 0 <= s <= 2 ^ 31 -> climbs fst s l -> wp (enum_values cx s l) (filled s l).
  Proof.
    intros ci. induction 1 as [|[e x] l (g & v & r & o) F IH]; intros s Hs C.
    - cbn. split; [exists s; split; [lia|]; split; [now rewrite zrange_nil by lia|now left]|]. split; easy.
    - inversion C as [|? ? ? h C']; subst. cbn [enum_values]. change (cx_config cx) with cfg. rewrite ci.
      cbn [fst snd] in *.
      rewrite (@fill_ok _ _ (fun z => (reserved_name z, z))) by
        (try lia; intros z Hz; now rewrite reserved_ok). cbn [gbind].
      apply wp_bind with (1 := camel_wp g (proj1 v)). intros ? <-.
      apply wp_bind with (1 := @succ_wp true e o ltac:(cbv iota; lia)). intros s' Es.
      assert (K : wp (enum_values cx s' l) (filled (e + 1) l)).
      { destruct Es as [->|Ee]; [apply IH; [lia|easy]|].
        destruct l as [|[e' x'] l]; [cbn; split; [exists (e + 1); split; [lia|]; split; [now rewrite zrange_nil by lia|now left]|easy]|].
        exfalso. inversion C' as [|? ? ? h' _]; subst. cbn in h'. inversion F as [|? ? (_ & _ & r' & _) _]; subst.
        cbn in r'. lia. }
      apply wp_bind with (1 := K). intros vs ((hi & Hhi & E1 & E0) & E2 & E3). cbn.
      split; [|split].
      + exists hi. split; [lia|]. split; [|right; destruct E0 as [->|(q & Hq & Eq)]; [exists (e, x); split; [now left|easy]|exists q; split; [now right|easy]]]. rewrite map_app, map_map. cbn. rewrite E1, map_id.
        rewrite (@zrange_split s e hi) by lia. f_equal.
        rewrite (@zrange_split e (e + 1) hi), zrange_one by lia. easy.
      + intros p [<-|H]; apply in_or_app; right; [now left|right; now apply E2].
      + intros p H. apply in_app_or in H as [H|[<-|H]].
        * apply in_map_iff in H as (z & <- & _). now left.
        * right. exists (e, x). split; [now left|easy].
        * destruct (E3 p H) as [?|(q & Hq & ?)]; [now left|right]. exists q. split; [now right|easy].
  Qed.

  (** what the rest of the proofs needs to know about an enum *)
  Definition enum_facts (l : list assign) (e : enum_item) : Prop :=
    item_compiles (IEnum e) /\
    exists T, enum_sem e = Some T /\
    ((enum_impl_std_trait cfg = true -> exists T', signed_sem e = Some T') /\
     ((enum_complement_index cfg = true -> dense ds l) -> (length (enum_names e) <= length l)%nat)) /\
    forall E a z, In a l -> value_is ds (as_value a) z ->
      exists i, position (camel (as_name a)) (enum_names e) = Some i /\
        (enum_impl_std_trait cfg = false \/ dense ds l ->
           exists y, denotes true E T (RVariant i []) y /\ same_wire (XEnum z) y) /\
        (forall T', signed_sem e = Some T' -> denotes true E T' (RVariant i []) (XEnum z)).

  Lemma nodup_names (vs : list (string * Z)) :
    NoDup (map snd vs) -> (forall p q, In p vs -> In q vs -> fst p = fst q -> snd p = snd q) ->
    NoDup (map fst vs).
  Proof.
    intros N H. apply NoDup_map_in; [now apply NoDup_map_inv with (1 := N)|].
    intros p q hp hq e. apply NoDup_map_inj with (1 := N); auto.
  Qed.

  Lemma in_nth_pair (vs : list (string * Z)) x z : In (x, z) vs ->
    exists i, nth_error (map fst vs) i = Some x /\ nth_error (map snd vs) i = Some z.
  Proof.
    intros H. apply In_nth_error in H as [i H]. exists i. now rewrite !nth_error_map, H.
  Qed.

  Lemma default_mem d (l : list string) : In d l -> existsb (String.eqb d) l = true.
  Proof. intros H. apply existsb_exists. exists d. split; [easy|apply String.eqb_refl]. Qed.

  Lemma enum_wp n x l : good_name x -> camelable x -> Forall good_assign l -> enum_ok cfg ds l ->
    enum_impl_indexer cfg = false \/ enum_impl_std_trait cfg = false ->
    wp (convert_enum_token cx n x l) (fun e => en_name e = camel x /\ enum_facts l e).
  Proof.
    intros gx cx' gl (ne & cd & vn & vals & dist) modes. rewrite Forall_forall in gl, vn.
    unfold convert_enum_token.
    apply wp_bind with (Forall2 (fun a p => snd p = as_name a /\ value_is ds (as_value a) (fst p)) l).
    { apply wp_gmap. intros a Ha. destruct (vals a Ha) as (z & V & R & _). destruct (gl a Ha) as [_ ga].
      apply wp_bind with (P := eq z); [apply value_wp; try easy; cbn; lia|]. intros ? <-. easy. }
    intros ix Hix. cbv zeta. change (cx_config cx) with cfg.
    set (srt := sort_by fst ix).
    (* the pairs *)
    assert (P1 : forall p, In p ix -> exists a, In a l /\ snd p = as_name a /\ value_is ds (as_value a) (fst p)).
    { intros p Hp. destruct (Forall2_in_r Hix Hp) as (a & Ha & ?). now exists a. }
    assert (P2 : forall a z, In a l -> value_is ds (as_value a) z -> In (z, as_name a) ix).
    { intros a z Ha V. destruct (Forall2_in_l Hix Ha) as ([w s] & Hp & e & V'). cbn in *. subst s.
      now rewrite (value_is_fun V V'). }
    assert (NA : NoDup (map as_name l)) by apply cd.
    assert (Nx : map snd ix = map as_name l) by (symmetry; apply Forall2_map_eq; eapply Forall2_impl_in; [exact Hix|]; cbn; intros a b _ _ [H _]; congruence).
    assert (N1 : NoDup (map snd ix)) by now rewrite Nx.
    assert (N2 : NoDup (map fst ix)).
    { apply NoDup_map_in; [now apply NoDup_map_inv with (1 := N1)|]. intros [z1 s1] [z2 s2] H1 H2 e. cbn in e. subst z2.
      destruct (P1 _ H1) as (a & Ha & ea & Va), (P1 _ H2) as (b & Hb & eb & Vb). cbn in *.
      now rewrite ea, eb, (dist a b z1). }
    assert (PS : forall p, In p srt <-> In p ix) by (intros p; apply sort_by_in).
    assert (LS : listed srt).
    { apply Forall_forall. intros p Hp. apply PS in Hp. destruct (P1 _ Hp) as (a & Ha & -> & V).
      destruct (vals a Ha) as (z & V' & R & _ & o). rewrite (value_is_fun V V'). destruct (gl a Ha).
      split; [easy|]. split; [apply vn; now apply in_map|easy]. }
    assert (SN : NoDup (map snd srt)) by (eapply Permutation_NoDup; [|exact N1]; apply Permutation_map; symmetry; apply sort_by_perm).
    assert (SF : NoDup (map fst srt)) by (eapply Permutation_NoDup; [|exact N2]; apply Permutation_map; symmetry; apply sort_by_perm).
    assert (SI : forall p q, In p srt -> In q srt -> camel (snd p) = camel (snd q) -> p = q).
    { intros p q Hp Hq e. apply NoDup_map_inj with (1 := SN); try easy.
      apply camel_inj with (map as_name l); try easy.
      - rewrite <- Nx. apply in_map. now apply PS.
      - rewrite <- Nx. apply in_map. now apply PS. }
    assert (SR : srt <> []).
    { intros e. destruct l as [|a l']; [easy|]. destruct (vals a (or_introl eq_refl)) as (z & V & _).
      specialize (P2 a z (or_introl eq_refl) V). apply PS in P2. now rewrite e in P2. }
    assert (SV : forall a z, In a l -> value_is ds (as_value a) z -> In (z, as_name a) srt)
      by (intros a z Ha V; apply PS; now apply P2).
    apply wp_bind with (1 := camel_wp gx cx'). intros ? <-.
    (* the variants *)
    apply wp_bind with (P := fun vs =>
      NoDup (map fst vs) /\ NoDup (map snd vs) /\ (forall p, In p srt -> In (shown p) vs) /\
      Forall variant_ok (map fst vs) /\ Forall (fun z => - 2 ^ 31 <= z < 2 ^ 31) (map snd vs) /\
      (enum_complement_index cfg = true -> exists hi, 0 <= hi <= 2 ^ 31 /\ map snd vs = zrange 0 hi /\ (hi = 0 \/ exists p, In p srt /\ fst p + 1 = hi)) /\
      (enum_complement_index cfg = false -> vs = map shown srt)).
    { destruct (enum_complement_index cfg) eqn:ci.
      - assert (CL : climbs fst 0 srt).
        { apply sorted_climbs; [easy|]. intros p Hp. destruct (P1 _ Hp) as (a & Ha & _ & V).
          destruct (vals a Ha) as (z & V' & _ & h & _). rewrite (value_is_fun V V'). auto. }
        apply wp_mono with (1 := @enum_values_filled srt ci LS 0 ltac:(lia) CL).
        intros vs ((hi & Hhi & E1 & E0) & E2 & E3).
        assert (M : NoDup (map snd vs)) by (rewrite E1; apply zrange_nodup).
        assert (RG : forall p, In p vs -> 0 <= snd p < 2 ^ 31).
        { intros p Hp. apply (in_map snd) in Hp. rewrite E1 in Hp. apply zrange_in in Hp. lia. }
        split; [|split; [easy|split; [easy|split; [|split; [|split; [|easy]]]]]].
        + apply nodup_names; [easy|]. intros p q Hp Hq e.
          destruct (E3 p Hp) as [ep|(p' & Hp' & ep)], (E3 q Hq) as [eq|(q' & Hq' & eq)].
          * pose proof (RG p Hp). pose proof (RG q Hq). apply reserved_inj; try lia.
            apply (f_equal fst) in ep, eq. cbn [fst snd shown] in ep, eq. congruence.
          * exfalso. apply (f_equal fst) in ep, eq. cbn [fst snd shown] in ep, eq. apply (@reserved_not_camel (snd p) (snd q')). congruence.
          * exfalso. apply (f_equal fst) in ep, eq. cbn [fst snd shown] in ep, eq. apply (@reserved_not_camel (snd q) (snd p')). congruence.
          * subst p q. cbn [fst snd shown] in e. now rewrite (SI p' q').
        + apply Forall_forall. intros y Hy. apply in_map_iff in Hy as (p & <- & Hp).
          destruct (E3 p Hp) as [->|(q & Hq & ->)]; [apply reserved_word|].
          cbn. apply variant_name. unfold listed in LS. rewrite Forall_forall in LS. now apply (LS q).
        + apply Forall_forall. intros y Hy. apply in_map_iff in Hy as (p & <- & Hp). specialize (RG p Hp). lia.
        + intros _. exists hi. split; [lia|]. split; [easy|exact E0].
      - apply wp_mono with (1 := enum_values_plain ci LS 0). intros ? <-.
        assert (A1 : map fst (map shown srt) = map camel (map snd srt)) by (now rewrite !map_map).
        assert (A2 : map snd (map shown srt) = map fst srt) by (now rewrite map_map).
        unfold listed in LS. rewrite Forall_forall in LS.
        split; [|split; [|split; [|split; [|split; [|split]]]]].
        + rewrite A1. apply NoDup_map_in; [easy|]. intros a b Ha Hb e.
          apply in_map_iff in Ha as (p & <- & Hp), Hb as (q & <- & Hq). now rewrite (SI p q).
        + now rewrite A2.
        + intros p Hp. now apply in_map.
        + rewrite A1. apply Forall_forall. intros y Hy. apply in_map_iff in Hy as (s & <- & Hs).
          apply in_map_iff in Hs as (p & <- & Hp). apply variant_name. now apply (LS p).
        + rewrite A2. apply Forall_forall. intros y Hy. apply in_map_iff in Hy as (p & <- & Hp).
          destruct (LS p Hp) as (_ & _ & r & _). lia.
        + discriminate.
        + easy. }
    intros vs (V1 & V2 & V3 & V4 & V5 & V6 & V7).
    apply wp_bind with (P := eq (map shown srt)).
    { unfold listed in LS. rewrite Forall_forall in LS.
      apply wp_mono with (P := Forall2 (fun p q => q = shown p) srt).
      - apply wp_gmap. intros p Hp. destruct (LS p Hp) as (g & v & _).
        apply wp_bind with (1 := camel_wp g (proj1 v)). intros ? <-. easy.
      - intros q Hq. clear - Hq. induction Hq; [easy|]. cbn. now f_equal. }
    intros ? <-.
    destruct (map shown srt) as [|[dflt z0] rest] eqn:em; [now destruct srt|]. rewrite <- em. rewrite <- em in V7.
    cbn. split; [easy|].
    assert (DI : In dflt (map fst vs)).
    { change dflt with (fst (dflt, z0)). apply in_map. assert (K : In (dflt, z0) (map shown srt)) by (rewrite em; now left).
      apply in_map_iff in K as (p & e & Hp). rewrite <- e. now apply V3. }
    set (e0 := EnumItem _ _ _ _ _ _ _).
    assert (EN : enum_names e0 = map fst vs) by reflexivity.
    split; [now repeat split|].
    assert (CM : enum_complement_index cfg = false -> NoDup (map fst (map shown srt)) /\ NoDup (map snd (map shown srt))).
    { intros ci. now rewrite <- (V7 ci). }
    assert (POS : forall a z, In a l -> value_is ds (as_value a) z ->
      exists i, position (camel (as_name a)) (enum_names e0) = Some i /\
                nth_error (map fst vs) i = Some (camel (as_name a)) /\ nth_error (map snd vs) i = Some z).
    { intros a z Ha V. pose proof (V3 _ (SV a z Ha V)) as H. unfold shown in H. cbn in H.
      destruct (in_nth_pair H) as (i & I1 & I2). exists i. split; [|easy]. rewrite EN. now apply nth_position. }
    assert (R32 : forall a z, In a l -> value_is ds (as_value a) z -> i32_range z).
    { intros a z Ha V. destruct (vals a Ha) as (w & V' & R & _). now rewrite (value_is_fun V V'). }
    (* as_ref and try_from *)
    assert (SG : enum_impl_std_trait cfg = true -> exists zs arms, signed_sem e0 = Some (TSigned32 zs arms DErr) /\
      forall i x z, nth_error (map fst vs) i = Some x -> nth_error (map snd vs) i = Some z -> In (x, z) vs ->
        nth_error zs i = Some z /\ assoc Z.eqb z arms = Some i).
    { intros std. assert (ci : enum_complement_index cfg = false) by (unfold enum_complement_index; rewrite std, andb_comm; easy).
      pose proof (V7 ci) as Ev. destruct (CM ci) as [C1 C2].
      unfold signed_sem, e0. cbn [en_as_ref en_try_from]. rewrite std. rewrite <- Ev.
      change (enum_names _) with (map fst vs).
      rewrite (@omap_map _ _ _ (fun x => match assoc String.eqb x vs with Some z => z | None => 0 end)).
      2: { intros y Hy. apply in_map_iff in Hy as ([y' z] & <- & Hp). cbn.
           now rewrite (assoc_in_nodup V1 Hp). }
      cbn [obind].
      set (sw := map (fun p => (snd p, fst p)) vs).
      assert (AT : exists arms, omap (fun p => option_map (Datatypes.pair (fst p)) (position (snd p) (map fst vs))) sw = Some arms).
      { apply omap_total. intros [z y] Hp. apply in_map_iff in Hp as ([y' z'] & [= <- <-] & Hp).
        apply (in_map fst) in Hp. cbn in Hp. destruct (position_in Hp) as [i Hi]. cbn. rewrite Hi. now exists (z', i). }
      destruct AT as [arms AT]. rewrite AT. cbn [obind].
      assert (NE : nonempty_list sw = true) by (unfold sw; rewrite Ev, em; reflexivity).
      rewrite NE. cbn [guard]. do 2 eexists. split; [reflexivity|].
      intros i y z I1 I2 Hin. split.
      - rewrite nth_error_map, I1. cbn. now rewrite (assoc_in_nodup V1 Hin).
      - apply assocZ_in_nodup.
        + apply omap_some in AT. replace (map fst arms) with (map fst sw).
          * unfold sw. now rewrite map_map.
          * apply Forall2_map_eq. eapply Forall2_impl_in; [exact AT|]. cbn. intros [z' y'] [z'' i'] _ _ H.
            cbn in *. destruct (position y' (map fst vs)); [|discriminate]. now injection H as <- _.
        + assert (Hsw : In (z, y) sw) by (apply in_map_iff; now exists (y, z)).
          apply omap_some in AT. destruct (Forall2_in_l AT Hsw) as (b & Hb & e). cbn in e.
          rewrite (nth_position V1 I1) in e. cbn in e. injection e as <-. easy. }
    assert (SG' : forall E a z, In a l -> value_is ds (as_value a) z -> exists i,
      position (camel (as_name a)) (enum_names e0) = Some i /\
      nth_error (map fst vs) i = Some (camel (as_name a)) /\ nth_error (map snd vs) i = Some z /\
      (forall T', signed_sem e0 = Some T' -> denotes true E T' (RVariant i []) (XEnum z))).
    { intros E a z Ha V. destruct (POS a z Ha V) as (i & I1 & I2 & I3). exists i. repeat split; try easy.
      intros T' HT'. destruct (enum_impl_std_trait cfg) eqn:std.
      - destruct (SG eq_refl) as (zs & arms & E1 & E2). rewrite E1 in HT'. injection HT' as <-.
        destruct (E2 i _ z I2 I3) as [J1 J2].
        { pose proof (V3 _ (SV a z Ha V)) as H. exact H. }
        constructor; [easy|now apply R32 with a|]. intros _. now rewrite J2.
      - exfalso. unfold signed_sem, e0 in HT'. cbn [en_as_ref en_try_from] in HT'. rewrite ?std in HT'. discriminate. }
    (* the number of variants *)
    assert (LN : (enum_complement_index cfg = true -> dense ds l) -> (length (enum_names e0) <= length l)%nat).
    { intros DN. assert (LI : length ix = length l) by (symmetry; now apply Forall2_len in Hix).
      assert (LSR : length srt = length l) by (rewrite <- LI; apply Permutation_length, sort_by_perm).
      rewrite EN, map_length. destruct (enum_complement_index cfg) eqn:ci.
      - destruct (V6 eq_refl) as (hi & _ & E1 & E0). apply (f_equal (@length Z)) in E1. rewrite map_length in E1.
        unfold zrange in E1. rewrite map_length, seq_length in E1. rewrite E1.
        destruct E0 as [->|(p & Hp & Eh)]; [lia|]. apply PS in Hp. destruct (P1 _ Hp) as (a & Ha & _ & Va).
        specialize (DN eq_refl a _ Ha Va). unfold zlen in DN. lia.
      - rewrite (V7 eq_refl), map_length. lia. }
    (* the modes *)
    unfold enum_sem. change (enum_names e0) with (map fst vs) at 1. cbn [en_default e0].
    rewrite (default_mem DI). cbn [guard].
    destruct (enum_impl_indexer cfg) eqn:ixm.
    - assert (std : enum_impl_std_trait cfg = false) by (now destruct modes).
      assert (ci : enum_complement_index cfg = false) by (unfold enum_complement_index; now rewrite ixm).
      pose proof (V7 ci) as Ev. destruct (CM ci) as [C1 C2].
      replace (en_derive e0) with DvIndexer by (unfold e0; cbn; now rewrite ?ixm).
      replace (en_as_ref e0) with (@None (list (string * Z))) by (unfold e0; cbn; now rewrite ?std).
      replace (en_indexer e0) with (Some (IndexerImpl
        (map (fun p => (fst p, TokId (snd p))) (map (fun p => (snd p, fst p)) (map shown srt)))
        (Some (TokId dflt)) (map (fun p => (TokId (fst p), false, snd p)) (map shown srt)) false))
        by (unfold e0; cbn; now rewrite ?ixm).
      unfold indexer_sem. cbn [ix_names ix_other ix_index ix_unimplemented].
      rewrite <- Ev.
      rewrite (@omap_map _ _ _ (fun p => match p with (z, t) => (z, match t with TokId x => x | _ => EmptyString end) end)).
      2: { intros [z t] Hp. apply in_map_iff in Hp as (q & [= <- <-] & Hq). reflexivity. }
      cbn [obind]. rewrite (@omap_map _ _ _ (fun p => match p with (t, _, z) => (match t with TokId x => x | _ => EmptyString end, z) end)).
      2: { intros [[t b] z] Hp. apply in_map_iff in Hp as ([y w] & [= <- <- <-] & Hq). cbn.
           assert (K : assoc String.eqb y (map (fun x => (x, @nil ty)) (map fst vs)) = Some []).
           { apply assoc_in_nodup; [rewrite map_map; cbn; now rewrite map_id|]. apply in_map_iff. exists y.
             split; [easy|]. now apply (in_map fst) in Hq. }
           unfold obind. change (enum_names e0) with (map fst vs). now rewrite K. }
      cbn [obind option_map token_id].
      rewrite !map_map. cbn [fst snd].
      match goal with |- context [guard (nonempty_list ?n && nonempty_list ?i && _) _] => set (names := n); set (index := i) end.
      assert (IX : index = vs).
      { unfold index. rewrite <- (map_id vs) at 2. apply map_ext. now intros []. }
      assert (NM : names = map (fun p => (snd p, fst p)) vs).
      { unfold names. reflexivity. }
      assert (NE : nonempty_list names && nonempty_list index = true).
      { rewrite IX, NM, Ev, em. reflexivity. }
      rewrite NE. cbn [andb orb].
      match goal with |- context [guard (forallb ?g ?m) _] => assert (FB : forallb g m = true) end.
      { apply forallb_forall. intros [y ts] Hy. apply in_map_iff in Hy as (p & [= <- <-] & Hp). cbn.
        rewrite IX. rewrite EN in Hp. apply in_map_iff in Hp as ([y' z'] & <- & Hp). cbn.
        now rewrite (assoc_in_nodup V1 Hp). }
      rewrite FB. cbn [guard]. eexists. split; [reflexivity|]. split; [split; [congruence|exact LN]|].
      intros E a z Ha V. destruct (SG' E a z Ha V) as (i & I1 & I2 & I3 & I4). exists i. split; [easy|]. split; [|easy].
      intros _. exists (XUnion (XInt z) (XStruct [])). split.
      + eapply dn_indexer with (name := camel (as_name a)) (ts := []).
        * rewrite map_map, EN. cbn. rewrite map_id. exact V1.
        * rewrite nth_error_map, EN, I2. reflexivity.
        * rewrite IX. apply assoc_in_nodup; [easy|]. apply (V3 _ (SV a z Ha V)).
        * now apply R32 with a.
        * intros _. split; [|cbn; lia].
          assert (K : assoc Z.eqb z names = Some (camel (as_name a))).
          { rewrite NM. apply assocZ_in_nodup; [now rewrite map_map|]. apply in_map_iff.
            exists (camel (as_name a), z). split; [easy|]. apply (V3 _ (SV a z Ha V)). }
          now rewrite K.
        * constructor.
      + apply same_trans with (XInt z); [apply same_enum_int|]. apply same_sym. apply same_union_void. apply same_void.
    - replace (en_derive e0) with DvSerde by (unfold e0; cbn; now rewrite ?ixm).
      replace (en_indexer e0) with (@None indexer_impl) by (unfold e0; cbn; now rewrite ?ixm).
      replace (en_as_ref e0) with (if enum_impl_std_trait cfg then Some (map shown srt) else None)
        by (unfold e0; reflexivity).
      assert (ES : exists T, match (if enum_impl_std_trait cfg then Some (map shown srt) else None) with
                | Some _ => obind (signed_sem e0) (fun _ => Some (TEnum (map (fun x => (x, VUnit)) (enum_names e0))))
                | None => Some (TEnum (map (fun x => (x, VUnit)) (enum_names e0)))
                end = Some T /\ T = TEnum (map (fun x => (x, VUnit)) (map fst vs))).
      { eexists. split; [|reflexivity]. destruct (enum_impl_std_trait cfg) eqn:std; [|easy].
        destruct (SG eq_refl) as (zs & arms & E1 & _). now rewrite E1. }
      destruct ES as (T & ES & ET). exists T. split; [exact ES|]. split.
      { split; [|exact LN]. intros std. destruct (SG std) as (zs & arms & E1 & _). eauto. }
      intros E a z Ha V. destruct (SG' E a z Ha V) as (i & I1 & I2 & I3 & I4). exists i. split; [easy|]. split; [|easy].
      intros D. exists (XEnum z). split; [|easy].
      assert (IZ : z = Z.of_nat i).
      { destruct (enum_complement_index cfg) eqn:ci.
        - destruct (V6 eq_refl) as (hi & _ & Ez & _). rewrite Ez in I3.
          assert (L : (i < Z.to_nat (hi - 0))%nat).
          { assert (nth_error (zrange 0 hi) i <> None) by (rewrite I3; easy). apply nth_error_Some in H.
            unfold zrange in H. now rewrite map_length, seq_length in H. }
          rewrite zrange_nth in I3 by easy. injection I3 as <-. lia.
        - assert (std : enum_impl_std_trait cfg = true).
          { unfold enum_complement_index in ci. rewrite ixm in ci. cbn in ci. now destruct (enum_impl_std_trait cfg). }
          destruct D as [D|D]; [congruence|].
          assert (LL : zlen srt = zlen l).
          { unfold zlen, srt. f_equal. rewrite (Permutation_length (sort_by_perm _ _)). symmetry. clear - Hix. induction Hix; cbn; congruence. }
          assert (DZ : forall p, In p srt -> 0 <= fst p < zlen srt).
          { intros p Hp. apply PS in Hp. destruct (P1 _ Hp) as (b & Hb & _ & Vb). rewrite LL. now apply D with b. }
          assert (CL : climbs fst 0 srt).
          { apply sorted_climbs; [easy|]. intros p Hp. apply DZ. now apply PS. }
          assert (Ez : map fst srt = zrange 0 (0 + zlen srt)) by (apply climbs_dense; [easy|]; intros p Hp; apply DZ; easy).
          rewrite (V7 eq_refl), map_map in I3. cbn [shown snd] in I3.
          change (map (fun x => fst x) srt) with (map fst srt) in I3. rewrite Ez in I3.
          assert (L : (i < Z.to_nat (0 + zlen srt - 0))%nat).
          { assert (nth_error (zrange 0 (0 + zlen srt)) i <> None) by (rewrite I3; easy). apply nth_error_Some in H.
            unfold zrange in H. now rewrite map_length, seq_length in H. }
          rewrite zrange_nth in I3 by easy. injection I3 as <-. lia. }
      rewrite IZ, ET. eapply dn_unit_variant.
      + rewrite nth_error_map, I2. reflexivity.
      + pose proof (R32 a z Ha V) as R. unfold i32_range in R. lia.
  Qed.
End Enum.
