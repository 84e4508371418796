(** Enums of generated files: the statements C43, C44 and C45. *)
From Coq Require Import Sorting.Permutation.
From Verif Require Import Base SpecUtf8 RustTypes SerModel DeModel SpecXdr SpecTypes SpecDecode XdrFacts EncProofs DecProofs CodecProofs CodecLemmas Nom NomFacts Ast ParserModel
  SpecGrammar SpecParse ConstProofs CaseModel SpecCase CaseProofs RustAst GenModel SpecGen GenFacts GenTotal
  GenPanic SpecItems GenLemmas SpecXdl GenSem SpecWire WireBase WireEnum WireTok WireStruct WireUnion WireFile
  WireSem WireMain WireLemmas WireBack.
Set Implicit Arguments.
Unset Strict Implicit.
Local Open Scope list_scope.

(** the item for a definition *)
Lemma item_from cfg ds f n x t : gen_code n cfg ds = GOk f -> In (x, t) (type_defs ds) ->
  exists l, type_token_of (ctx cfg ds) n (x, t) = GOk l /\ forall i, In i l -> In i (fi_types f).
Proof.
  intros H I. apply gen_ok_parts in H as [_ H]. unfold types_token in H. apply gbind_ok in H as (ls & H & [= <-]).
  apply gmap_ok in H. cbn [typedefs ctx] in H. destruct (Forall2_in_l H I) as (l & Hl & E). exists l. split; [easy|].
  intros i Hi. apply in_concat. eauto.
Qed.

Lemma item_back cfg ds f n i : gen_code n cfg ds = GOk f -> In i (fi_types f) ->
  exists d l, In d (type_defs ds) /\ type_token_of (ctx cfg ds) n d = GOk l /\ In i l.
Proof.
  intros H I. apply gen_ok_parts in H as [_ H]. unfold types_token in H. apply gbind_ok in H as (ls & H & E).
  injection E as E. rewrite <- E in I. clear E.
  apply gmap_ok in H. cbn [typedefs ctx] in H. apply in_concat in I as (l & Hl & Hi).
  destruct (Forall2_in_r H Hl) as (d & Hd & E). eauto.
Qed.

Lemma enum_of ds cfg f x y l : good_spec ds -> one_scope ds -> greturns (fun n => gen_code n cfg ds) (GOk f) ->
  In (x, TdEnum y l) (type_defs ds) -> exists n e, In (IEnum e) (fi_types f) /\ convert_enum_token (ctx cfg ds) n x l = GOk e /\
    enum_made cfg ds x l e /\ good_name x /\ nonempty l /\ Forall good_assign l.
Proof.
  intros G OS H I. apply greturns_run in H as (n & H & _). destruct (item_from H I) as (its & T & S).
  cbn [type_token_of] in T. apply gbind_ok in T as (e & T & E). injection E as <-.
  destruct (good_types G I) as ((gy & ne & gl) & [= ->]). rename gy into gx.
  exists n, e. split; [apply S; now left|]. split; [easy|]. split; [|easy]. eapply enum_back; eauto.
Qed.

Lemma enum_facts_of ds cfg f x y l : good_spec ds -> one_scope ds -> greturns (fun n => gen_code n cfg ds) (GOk f) ->
  Forall item_compiles (fi_types f) ->
  enum_impl_indexer cfg = false \/ enum_impl_std_trait cfg = false ->
  (forall a z, In a l -> value_is ds (as_value a) z -> enum_complement_index cfg = true -> 0 <= z) ->
  In (x, TdEnum y l) (type_defs ds) -> exists e, In (IEnum e) (fi_types f) /\ en_name e = camel x /\
    enum_made cfg ds x l e /\ enum_ok cfg ds l /\ enum_facts cfg ds l e.
Proof.
  intros G OS H C M POS I. destruct (enum_of G OS H I) as (n & e & HI & CE & EM & gx & ne & gl).
  exists e. rewrite Forall_forall in C. pose proof (enum_made_ok ne EM (C _ HI) POS) as EO.
  pose proof EM as EM'. destruct EM' as (ix & _ & Z). cbv zeta in Z. destruct Z as (EN & CX & _).
  split; [easy|]. split; [easy|]. split; [easy|]. split; [easy|].
  exact (proj2 (wp_ok (enum_wp G n gx CX gl EO M) CE)).
Qed.


(** ** C43, and the positive part of C45 *)
Lemma enum_speaks cfg ds f x y l : good_spec ds -> one_scope ds -> enum_impl_std_trait cfg = false ->
  greturns (fun n => gen_code n cfg ds) (GOk f) -> compiles f ->
  (forall a z, In a l -> value_is ds (as_value a) z -> enum_complement_index cfg = true -> 0 <= z) ->
  In (x, TdEnum y l) (type_defs ds) ->
  exists e T, In (IEnum e) (fi_types f) /\ camel_of x (en_name e) /\ enum_sem e = Some T /\
    (forall a, In a l -> exists z, value_is ds (as_value a) z) /\
    forall E a z, In a l -> value_is ds (as_value a) z ->
      exists i n, nth_error (enum_names e) i = Some n /\ camel_of (as_name a) n /\ speaks E T (RVariant i []) (XEnum z).
Proof.
  intros G OS ST H C POS I. destruct C as (_ & _ & C & _).
  destruct (enum_facts_of G OS H C (or_intror ST) POS I) as (e & HI & EN & EM & EO & EF).
  destruct EF as (_ & T & ET & _ & EV). exists e, T. split; [easy|]. split; [rewrite EN; apply camel_of_camel|]. split; [easy|].
  split. { intros a Ha. destruct EO as (_ & _ & _ & V & _). destruct (V a Ha) as (z & Hz & _). now exists z. }
  intros E a z Ha V. destruct (EV E a z Ha V) as (i & PS & D & _). destruct D as (yv & D & W); [now left|].
  exists i, (camel (as_name a)). split; [now apply position_nth|]. split; [apply camel_of_camel|]. now apply speaks_denotes with yv.
Qed.

(** ** C44 *)
Lemma c44 cfg ds f x y l : good_spec ds -> one_scope ds -> enum_impl_std_trait cfg = true -> enum_impl_indexer cfg = false ->
  greturns (fun n => gen_code n cfg ds) (GOk f) -> compiles f ->
  In (x, TdEnum y l) (type_defs ds) ->
  exists e asr tf, In (IEnum e) (fi_types f) /\ camel_of x (en_name e) /\ en_as_ref e = Some asr /\ en_try_from e = Some tf /\
    (forall a, In a l -> exists z, value_is ds (as_value a) z) /\
    (forall a z, In a l -> value_is ds (as_value a) z -> exists n, camel_of (as_name a) n /\ In n (enum_names e) /\
       assoc String.eqb n asr = Some z /\ assoc Z.eqb z tf = Some n) /\
    (forall z, (forall a, In a l -> ~ value_is ds (as_value a) z) -> assoc Z.eqb z tf = None) /\
    exists T, signed_sem e = Some T /\
      (forall E a z, In a l -> value_is ds (as_value a) z ->
        exists i n, nth_error (enum_names e) i = Some n /\ camel_of (as_name a) n /\ speaks E T (RVariant i []) (XEnum z)) /\
      (forall E z, (forall a, In a l -> ~ value_is ds (as_value a) z) -> rejects E T z).
Proof.
  intros G OS ST IX H C I. destruct C as (_ & _ & C & _).
  assert (POS : forall a z, In a l -> value_is ds (as_value a) z -> enum_complement_index cfg = true -> 0 <= z).
  { intros a z _ _ K. unfold enum_complement_index in K. now rewrite IX, ST in K. }
  destruct (enum_facts_of G OS H C (or_introl IX) POS I) as (e & HI & EN & EM & EO & EF).
  pose proof EO as (_ & CD & _ & VS & DIST).
  pose proof EM as (ix & F & M). cbv zeta in M. destruct M as (_ & _ & EV & EA & ET & _). rewrite ST in EA, ET.
  set (srt := sort_by fst ix) in *.
  exists e, (map shown srt), (map (fun p => (snd p, fst p)) (map shown srt)).
  split; [easy|]. split; [rewrite EN; apply camel_of_camel|]. split; [easy|]. split; [easy|].
  split. { intros a Ha. destruct (VS a Ha) as (z & Hz & _). now exists z. }
  assert (P : Permutation srt ix) by apply sort_by_perm.
  assert (IN : forall p, In p srt -> exists a, In a l /\ snd p = as_name a /\ value_is ds (as_value a) (fst p)).
  { intros p Hp. apply (Permutation_in _ P) in Hp. destruct (Forall2_in_r F Hp) as (a & Ha & E1 & E2 & _). now exists a. }
  rewrite Forall_forall in C. pose proof (C _ HI) as (NN & _ & NV & _).
  destruct (enum_values_back EV) as (_ & INV & N1 & N2). specialize (N1 NN). specialize (N2 NV).
  assert (NF : NoDup (map fst (map shown srt))).
  { rewrite map_map. cbn [shown fst]. rewrite <- (map_map snd camel). exact N1. }
  assert (NS : NoDup (map fst (map (fun p => (snd p, fst p)) (map shown srt)))).
  { rewrite map_map. cbn [fst]. rewrite map_map. exact N2. }
  assert (HS : forall a z, In a l -> value_is ds (as_value a) z -> In (z, as_name a) srt).
  { intros a z Ha V. destruct (Forall2_in_l F Ha) as (p & Hp & E1 & E2 & _). rewrite <- (value_is_fun E2 V), <- E1.
    apply Permutation_in with (1 := Permutation_sym P). now destruct p. }
  split; [|split].
  - intros a z Ha V. exists (camel (as_name a)). split; [apply camel_of_camel|]. pose proof (HS a z Ha V) as K. split; [|split].
    + unfold enum_names. apply in_map_iff. exists (shown (z, as_name a)). split; [easy|auto].
    + apply assoc_in_nodup; [easy|]. apply in_map_iff. now exists (z, as_name a).
    + apply assocZ_in_nodup; [easy|]. rewrite map_map. apply in_map_iff. now exists (z, as_name a).
  - intros z N. apply assocZ_none. rewrite map_map. intros K. rewrite map_map in K. apply in_map_iff in K as (p & E1 & Hp).
    destruct (IN p Hp) as (a & Ha & _ & V). cbn in E1. subst z. now apply (N a).
  - destruct EF as (_ & T0 & _ & SS & EVS). destruct (proj1 SS ST) as [T ES]. exists T. split; [easy|]. split.
    + intros E a z Ha V. destruct (EVS E a z Ha V) as (i & PS & _ & D). specialize (D T ES).
      exists i, (camel (as_name a)). split; [now apply position_nth|]. split; [apply camel_of_camel|]. apply speaks_denotes with (XEnum z); [easy|apply same_refl].
    + intros E z N. destruct (enum_made_try z EM ES) as (zs & arms & -> & K). specialize (K N). intros bs S.
      exists (ECustom (MCannotConvert z)). pose proof (c23_read E zs arms DErr [] S) as R. rewrite K in R. cbn [with_dflt] in R. rewrite app_nil_r in R.
      destruct R as [_ [M R]]. split; [discriminate|]. exists M. intros k Hk. unfold from_bytes. now rewrite R.
Qed.

(** ** C45: words that are no member's value *)
Lemma c45_unknown cfg ds f x y l : good_spec ds -> one_scope ds -> enum_impl_std_trait cfg = false -> enum_impl_indexer cfg = true ->
  greturns (fun n => gen_code n cfg ds) (GOk f) -> compiles f ->
  In (x, TdEnum y l) (type_defs ds) ->
  exists e T, In (IEnum e) (fi_types f) /\ camel_of x (en_name e) /\ enum_sem e = Some T /\
    exists i n a z, nth_error (enum_names e) i = Some n /\ camel_of (as_name a) n /\ In a l /\ value_is ds (as_value a) z /\
      (forall b w, In b l -> value_is ds (as_value b) w -> z <= w) /\
      forall E w bs, signed 4 w bs -> (forall b, In b l -> ~ value_is ds (as_value b) w) ->
        returns (fun n => from_bytes n E T bs) (Ok (RVariant i [])).
Proof.
  intros G OS ST IX H C I. destruct C as (_ & _ & C & _).
  assert (POS : forall a z, In a l -> value_is ds (as_value a) z -> enum_complement_index cfg = true -> 0 <= z).
  { intros a z _ _ K. unfold enum_complement_index in K. now rewrite IX, ST in K. }
  destruct (enum_facts_of G OS H C (or_intror ST) POS I) as (e & HI & EN & EM & EO & EF).
  destruct EF as (_ & T & ET & _). exists e, T. split; [easy|]. split; [rewrite EN; apply camel_of_camel|]. split; [easy|].
  pose proof EM as (ix & F & M). cbv zeta in M. destruct M as (_ & _ & EV & EA & _ & (p & rest & ES & ED) & EDV & EI). rewrite ST in EA. rewrite IX in EDV, EI.
  assert (P : Permutation (sort_by fst ix) ix) by apply sort_by_perm.
  destruct (enum_values_back EV) as (_ & INV & _).
  assert (Hp : In p ix) by (apply (Permutation_in _ P); rewrite ES; now left).
  destruct (Forall2_in_r F Hp) as (a & Ha & E1 & V & _).
  assert (K : In (en_default e) (enum_names e)).
  { unfold enum_names. apply in_map_iff. exists (shown p). split; [easy|]. apply INV. rewrite ES. now left. }
  destruct (position_in K) as [i Pi]. apply position_nth in Pi.
  exists i, (en_default e), a, (fst p). split; [easy|]. split; [rewrite ED, E1; apply camel_of_camel|]. split; [easy|]. split; [easy|]. split.
  - intros b w Hb Vb. destruct (Forall2_in_l F Hb) as (q & Hq & _ & W & _). rewrite (value_is_fun Vb W).
    pose proof (sort_by_asc fst ix) as SA. rewrite ES in SA.
    apply (Permutation_in _ (Permutation_sym P)) in Hq. rewrite ES in Hq. destruct Hq as [->|Hq]; [lia|].
    inversion SA; subst. auto.
  - intros E w bs S N. apply from_bytes_accepted.
    unfold enum_sem in ET. rewrite EDV, EI, EA in ET.
    destruct (existsb _ _); [|discriminate]. cbn [guard] in ET. unfold indexer_sem in ET. cbn [ix_names ix_index ix_other ix_unimplemented token_id option_map] in ET.
    apply obind_some in ET as (names & EN' & ET). apply obind_some in ET as (index & EI' & ET). cbn [obind] in ET.
    destruct (_ && _); [|discriminate]. injection ET as <-.
    rewrite <- (app_nil_r bs). apply ac_indexer with w (en_default e) []; [easy| | | |cbn; lia|constructor].
    + replace (assoc Z.eqb w names) with (@None string); [easy|]. symmetry. apply assocZ_none. intros Kw.
      apply omap_some in EN'. apply in_map_iff in Kw as ([w' s] & <- & Kw). destruct (Forall2_in_r EN' Kw) as ([w2 tk] & Hw & E2).
      rewrite !map_map in Hw. apply in_map_iff in Hw as (q & E3 & Hq). injection E3 as <- <-. cbn in E2. injection E2 as <- <-.
      apply (Permutation_in _ P) in Hq. destruct (Forall2_in_r F Hq) as (b & Hb & _ & Vb & _). now apply (N b).
    + rewrite nth_error_map, Pi. reflexivity.
    + intros j ts' Hj Kj. rewrite nth_error_map in Kj. destruct (nth_error (enum_names e) j) as [nj|] eqn:Ej; [|discriminate].
      injection Kj as -> _. rewrite Forall_forall in C. destruct (C _ HI) as (NN & _).
      rewrite NoDup_nth_error in NN. assert (j = i); [|lia]. apply NN; [|congruence]. apply nth_error_Some. congruence.
Qed.

Lemma c45 cfg ds f x y l : good_spec ds -> one_scope ds -> enum_impl_std_trait cfg = false -> enum_impl_indexer cfg = true ->
  greturns (fun n => gen_code n cfg ds) (GOk f) -> compiles f ->
  In (x, TdEnum y l) (type_defs ds) ->
  exists e T, In (IEnum e) (fi_types f) /\ camel_of x (en_name e) /\ enum_sem e = Some T /\
    (forall a, In a l -> exists z, value_is ds (as_value a) z) /\
    forall E a z, In a l -> value_is ds (as_value a) z ->
      exists i n, nth_error (enum_names e) i = Some n /\ camel_of (as_name a) n /\ speaks E T (RVariant i []) (XEnum z).
Proof.
  intros G OS ST IX H C. apply (enum_speaks G OS ST H C). intros a z _ _ K. unfold enum_complement_index in K. now rewrite IX in K.
Qed.
