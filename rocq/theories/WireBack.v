(** From a generated file that compiles back to the definitions: the names and
    numbers of the definitions are usable. *)
From Coq Require Import Sorting.Permutation.
From Verif Require Import Base RustTypes SpecXdr SpecTypes XdrFacts Nom NomFacts Ast ParserModel
  SpecGrammar SpecParse ConstProofs CaseModel SpecCase CaseProofs RustAst GenModel SpecGen GenFacts GenTotal
  GenPanic SpecItems GenLemmas SpecXdl GenSem WireBase WireEnum WireTok WireStruct WireUnion.
Set Implicit Arguments.
Unset Strict Implicit.
Local Open Scope list_scope.

(** ** Names *)
Lemma camel_back x y : upper_camel_case_ident x = GOk y -> y = camel x /\ camelable x.
Proof.
  unfold upper_camel_case_ident, ident_new. destruct (ident_text _) eqn:e; [|discriminate]. intros [= <-]. split; [easy|].
  apply ident_text_spec in e as [S _]. unfold camelable. rewrite <- camel_letters, no_us_letters by apply camel_no_us.
  pose proof (camel_no_us (chars x)) as N. destruct (upper_camel_case (chars x)) as [|c t]; [easy|]. unfold name_start in S.
  cbn [map starts] in *. rewrite alpha_lower. cbn [existsb] in N. apply orb_false_iff in N as [N _].
  rewrite Ascii.eqb_sym, N, orb_false_r in S. exact S.
Qed.

Lemma variant_back x : camelable x -> variant_ok (camel x) -> variant_name_ok x.
Proof.
  intros C ((W & _) & E). split; [easy|]. rewrite !camel_of_iff. split; [|congruence].
  intros H. apply W. rewrite <- H. vm_compute. tauto.
Qed.

Lemma Forall2_eq_map {A B} (g : A -> B) l m : Forall2 (fun a b => b = g a) l m -> m = map g l.
Proof. induction 1; cbn; congruence. Qed.

Lemma nodup_tail {A} (l m : list A) : NoDup (l ++ m) -> NoDup m.
Proof. induction l; [easy|]. cbn. inversion 1; auto. Qed.

(** ** Enums *)
Section Enum.
  Variables (cfg : config) (ds : list definition).
  Hypothesis G : good_spec ds.
  Hypothesis OS : one_scope ds.
  Let cx := ctx cfg ds.

  Lemma enum_values_back : forall idx s vs, enum_values cx s idx = GOk vs ->
    Forall (fun p => camelable (snd p) /\ (overflow_checks cfg = true -> fst p < 2 ^ 31 - 1)) idx /\
    (forall p, In p idx -> In (shown p) vs) /\
    (NoDup (map fst vs) -> NoDup (map camel (map snd idx))) /\ (NoDup (map snd vs) -> NoDup (map fst idx)).
  Proof.
    induction idx as [|[e x] idx IH]; intros s vs H.
    - injection H as <-. repeat split; try constructor. easy.
    - cbn [enum_values] in H. apply gbind_ok in H as (fill & _ & H). apply gbind_ok in H as (it & HI & H).
      apply camel_back in HI as [-> C]. apply gbind_ok in H as (s' & HS & H). apply gbind_ok in H as (vs' & HV & H). injection H as <-.
      destruct (IH _ _ HV) as (F & I & N1 & N2). split; [|split; [|split]].
      + constructor; [|easy]. cbn. split; [easy|]. intros o. unfold succ_checked in HS. change (cx_config cx) with cfg in HS. rewrite o in HS.
        destruct (Z.ltb_spec e (2 ^ 31 - 1)); [easy|discriminate].
      + intros p [<-|Hp]; apply in_or_app; right; [now left|right; auto].
      + intros N. rewrite map_app in N. apply nodup_tail in N. inversion N as [|? ? NI N']; subst. cbn. constructor; [|auto].
        intros K. apply NI. rewrite map_map in K. apply in_map_iff in K as (p & Ep & Hp). apply in_map_iff. exists (shown p). split; [easy|auto].
      + intros N. rewrite map_app in N. apply nodup_tail in N. inversion N as [|? ? NI N']; subst. cbn. constructor; [|auto].
        intros K. apply NI. apply in_map_iff in K as (p & Ep & Hp). apply in_map_iff. exists (shown p). split; [easy|auto].
  Qed.

  (** what a successful conversion says *)
  Definition enum_made (x : string) (l : list assign) (e : enum_item) : Prop :=
    exists ix, Forall2 (fun a p => snd p = as_name a /\ value_is ds (as_value a) (fst p) /\ - 2 ^ 31 <= fst p < 2 ^ 31) l ix /\
      let srt := sort_by fst ix in
      en_name e = camel x /\ camelable x /\ enum_values cx 0 srt = GOk (en_values e) /\
      en_as_ref e = (if enum_impl_std_trait cfg then Some (map shown srt) else None) /\
      en_try_from e = (if enum_impl_std_trait cfg then Some (map (fun p => (snd p, fst p)) (map shown srt)) else None) /\
      (exists p rest, srt = p :: rest /\ en_default e = camel (snd p)) /\
      en_derive e = (if enum_impl_indexer cfg then DvIndexer else DvSerde) /\
      en_indexer e = (if enum_impl_indexer cfg then
        Some (IndexerImpl (map (fun p => (fst p, TokId (snd p))) (map (fun p => (snd p, fst p)) (map shown srt)))
                (Some (TokId (en_default e))) (map (fun p => (TokId (fst p), false, snd p)) (map shown srt)) false) else None).

  Lemma enum_back n x l e : Forall good_assign l -> convert_enum_token cx n x l = GOk e -> enum_made x l e.
  Proof.
    intros gl H. unfold convert_enum_token in H. apply gbind_ok in H as (ix & HX & H). cbv zeta in H.
    apply gbind_ok in H as (nm & HN & H). apply camel_back in HN as [-> C]. apply gbind_ok in H as (vs & HV & H).
    apply gbind_ok in H as (items & HI & H). apply gmap_ok in HX, HI.
    exists ix. split.
    - rewrite Forall_forall in gl. eapply Forall2_impl_in; [exact HX|]. cbn. intros a p Ha _ H'.
      apply gbind_ok in H' as (z & Hz & H'). injection H' as <-. cbn. split; [easy|]. destruct (gl a Ha) as [_ gv].
      destruct (resolves_value (good_spec_values G) OS gv Hz) as [V F]. split; [easy|]. cbn in F. lia.
    - assert (EI : items = map shown (sort_by fst ix)).
      { apply Forall2_eq_map. eapply Forall2_impl_in; [exact HI|]. cbn. intros p q _ _ H'. apply gbind_ok in H' as (y & Hy & H').
        apply camel_back in Hy as [-> _]. now injection H' as <-. }
      change (cx_config cx) with cfg in H. cbv zeta. destruct items as [|[d z] rest]; [discriminate|]. injection H as <-.
      cbn [en_name en_values en_as_ref en_try_from en_default en_derive en_indexer]. rewrite <- EI.
      repeat split; try easy. destruct (sort_by fst ix) as [|p srt]; [discriminate|]. injection EI as -> _ _. now exists p, srt.
  Qed.

  Lemma enum_made_ok x l e : nonempty l -> enum_made x l e -> item_compiles (IEnum e) ->
    (forall a z, In a l -> value_is ds (as_value a) z -> enum_complement_index cfg = true -> 0 <= z) -> enum_ok cfg ds l.
  Proof.
    intros NE (ix & F & H) (N1 & VO & N2 & _) POS. cbv zeta in H. destruct H as (_ & _ & EV & _).
    destruct (enum_values_back EV) as (FV & I & M1 & M2). specialize (M1 N1). specialize (M2 N2).
    rewrite Forall_forall in FV, VO.
    assert (P : Permutation (sort_by fst ix) ix) by apply sort_by_perm.
    assert (EM : map snd ix = map as_name l).
    { symmetry. apply Forall2_map_eq. eapply Forall2_impl_in; [exact F|]. cbn. now intros a p _ _ (-> & _). }
    assert (NC : NoDup (map camel (map as_name l))).
    { rewrite <- EM. eapply Permutation_NoDup; [|exact M1]. now apply Permutation_map, Permutation_map. }
    assert (NZ : NoDup (map fst ix)) by (eapply Permutation_NoDup; [|exact M2]; now apply Permutation_map).
    assert (IX : forall a, In a l -> exists p, In p ix /\ In p (sort_by fst ix) /\ snd p = as_name a /\ value_is ds (as_value a) (fst p) /\ - 2 ^ 31 <= fst p < 2 ^ 31).
    { intros a Ha. destruct (Forall2_in_l F Ha) as (p & Hp & E). exists p. split; [easy|]. split; [|easy].
      apply Permutation_in with (2 := Hp). now symmetry. }
    split; [easy|]. split; [|split; [|split]].
    - split; [now apply NoDup_map_inv with (1 := NC)|]. intros y z w Hy Hz C1 C2. apply camel_of_iff in C1, C2.
      apply NoDup_map_inj with (1 := NC); try easy. congruence.
    - apply Forall_forall. intros y Hy. apply in_map_iff in Hy as (a & <- & Ha). destruct (IX a Ha) as (p & _ & Hp & Ep & _).
      rewrite <- Ep. apply variant_back; [now apply (FV p)|]. apply VO. apply in_map_iff. exists (shown p). split; [easy|auto].
    - intros a Ha. destruct (IX a Ha) as (p & _ & Hp & Ep & V & R). exists (fst p). split; [easy|]. split; [easy|]. split; [now apply POS with a|].
      now apply (FV p).
    - intros a b z Ha Hb Va Vb. destruct (IX a Ha) as (p & Hp & _ & Ep & V & _), (IX b Hb) as (q & Hq & _ & Eq & W & _).
      assert (p = q).
      { apply NoDup_map_inj with (1 := NZ); try easy. rewrite (value_is_fun V Va). symmetry. now rewrite (value_is_fun W Vb). }
      subst q. apply NoDup_map_inj with (f := as_name) (l := l); try easy; [|congruence].
      now apply NoDup_map_inv with (1 := NC).
  Qed.

  (** values outside the members, for the std traits *)
  Lemma enum_made_try x l e T z : enum_made x l e -> signed_sem e = Some T ->
    exists zs arms, T = TSigned32 zs arms DErr /\
      ((forall a, In a l -> ~ value_is ds (as_value a) z) -> assoc Z.eqb z arms = None).
  Proof.
    intros (ix & F & H) ST. cbv zeta in H. destruct H as (_ & _ & _ & EA & ET & _). unfold signed_sem in ST. rewrite EA, ET in ST.
    destruct (enum_impl_std_trait cfg); [|discriminate].
    destruct (omap _ (enum_names e)) as [zs|]; [|discriminate]. cbn [obind] in ST.
    destruct (omap _ (map _ (map shown (sort_by fst ix)))) as [arms|] eqn:EO; [|discriminate]. cbn [obind] in ST.
    destruct (nonempty_list _); [|discriminate]. injection ST as <-. exists zs, arms. split; [easy|]. intros N.
    apply assocZ_none. intros K. apply in_map_iff in K as ([z' i] & <- & K). apply omap_some in EO.
    destruct (Forall2_in_r EO K) as ([z2 s] & Hs & E2). cbn in E2. destruct (position s (enum_names e)); [|discriminate]. injection E2 as -> <-.
    rewrite map_map in Hs. apply in_map_iff in Hs as ([z3 s3] & [= -> <-] & Hp). cbn in *.
    apply (Permutation_in _ (sort_by_perm _ _)) in Hp. destruct (Forall2_in_r F Hp) as (a & Ha & _ & V & _). cbn in V. now apply (N a).
  Qed.
End Enum.
