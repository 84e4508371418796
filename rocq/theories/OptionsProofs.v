(** C116: what the flags and the overflow checks have to do with whether a file is translated. *)
From Verif Require Import Base RustTypes Nom NomFacts Keyword Ast ParserModel SpecGrammar SpecParse ParseSound ParserLemmas ConstProofs
  CaseModel SpecCase CaseProofs RustAst GenModel SpecGen SpecItems GenFacts GenTotal GenPanic GenLemmas WireBase
  SpecTranslate TranslateProofs TranslateGen TranslateUnion.
Set Implicit Arguments.
Unset Strict Implicit.
Local Open Scope list_scope.

(** ** Flags *)
Section Same.
  Variables (c1 c2 : config) (ds : list definition).
  Hypothesis R : remove_typedef c1 = remove_typedef c2.
  Hypothesis O : overflow_checks c1 = overflow_checks c2.
  Lemma stands_same x d : stands_in c1 ds x d -> stands_in c2 ds x d.
  Proof. unfold stands_in. now rewrite R. Qed.
  Lemma stands_same' x d : stands_in c2 ds x d -> stands_in c1 ds x d.
  Proof. unfold stands_in. now rewrite R. Qed.
  Lemma typed_same t : typed c1 ds t -> typed c2 ds t.
  Proof.
    induction 1 as [t h|x H c|x d H m s|x d t H m T IH s].
    - now apply ty_rust.
    - apply ty_name; [|easy]. intros d D. now apply (H d), stands_same'.
    - now apply ty_plain with d; [apply stands_same| |].
    - now apply ty_other with d t; [apply stands_same| | |].
  Qed.
  Lemma refused_same t : refused c1 ds t -> refused c2 ds t.
  Proof.
    induction 1 as [t h|x d H m s|x d t H m T IH|x d t H m T s].
    - now apply rf_no_rust.
    - now apply rf_plain with d; [apply stands_same| |].
    - now apply rf_other with d t; [apply stands_same| |].
    - now apply rf_size with d t; [apply stands_same| |apply typed_same|].
  Qed.
  Lemma expressible_same d : expressible c1 ds d -> expressible c2 ds d.
  Proof. intros [s T]. split; [easy|]. intros t m. now apply typed_same, T. Qed.
  Lemma arm_same s : arm_ok c1 ds s -> arm_ok c2 ds s.
  Proof.
    destruct s as [vs d]. intros [e F]. split; [now apply expressible_same|]. unfold number_for_union in *. now rewrite <- O.
  Qed.
  Lemma union_same u : union_body_ok c1 ds u -> union_body_ok c2 ds u.
  Proof.
    destruct u as [c specs dflt]. intros [(t & x & E & S) D]. split; [|intros d K; now apply expressible_same, D].
    exists t, x. split; [easy|]. destruct t; cbn [switch_ok] in *; try easy.
    - eapply Forall_impl; [|exact S]. intros a. apply arm_same.
    - destruct S as [S1 S2]. split; [|easy]. intros v d K A. apply expressible_same. now apply (S1 v).
    - destruct S as (S1 & S2 & S3). split; [eapply Forall_impl; [|exact S1]; intros a; apply arm_same|]. split; [|exact S3]. clear S3.
      destruct S2 as [S2|[S2 S3]]; [left; now apply typed_same|right; split; [now apply refused_same|easy]].
  Qed.
  Lemma struct_same l : Forall (member_ok c1 ds) l -> Forall (member_ok c2 ds) l.
  Proof. intros F. eapply Forall_impl; [|exact F]. intros d [e K]. split; [now apply expressible_same|easy]. Qed.
End Same.

Lemma enum_ok_more cfg cfg' ds l : overflow_checks cfg' = overflow_checks cfg ->
  (enum_complement_index cfg' = true -> enum_complement_index cfg = true) -> enum_ok cfg ds l -> enum_ok cfg' ds l.
Proof.
  intros E1 E2 [c (zs & V & (r & o & g))]. split; [easy|]. exists zs. split; [easy|]. split; [easy|].
  rewrite E1. split; [easy|]. intros K. now apply g, E2.
Qed.
Lemma translatable_more fl fl' checks ds :
  (enum_complement_index (main_config fl' checks) = true -> enum_complement_index (main_config fl checks) = true) ->
  translatable (main_config fl checks) ds -> translatable (main_config fl' checks) ds.
Proof.
  intros E [C T]. split; [exact C|]. eapply Forall_impl; [|exact T]. intros [x t] H. unfold type_ok in *. cbn [fst snd] in *.
  destruct t as [d|y l|y l|y u]; [now left| | |].
  - destruct H as [c H]. split; [exact c|]. now apply (@enum_ok_more (main_config fl checks)).
  - destruct H as [c H]. split; [exact c|]. now apply (@struct_same (main_config fl checks)).
  - destruct H as [c H]. split; [exact c|]. now apply (@union_same (main_config fl checks)).
Qed.
Lemma flags_more fl checks t ds : greturns (fun n => parse n t) (GOk ds) ->
  (exists f, greturns (fun n => rpcgen n (Flags false false false false) checks t) (GOk f)) ->
  exists f, greturns (fun n => rpcgen n fl checks t) (GOk f).
Proof.
  intros P. rewrite !(tool_translated _ checks P). apply translatable_more. reflexivity.
Qed.

Lemma translatable_same fl fl' checks ds : no_negative_gap ds ->
  translatable (main_config fl checks) ds -> translatable (main_config fl' checks) ds.
Proof.
  intros N [C T]. split; [exact C|]. rewrite Forall_forall in *. intros [x t] I. specialize (T _ I).
  unfold type_ok in *. cbn [fst snd] in *.
  destruct t as [d|y l|y l|y u]; [now left| | |]; destruct T as [c T]; (split; [exact c|]);
    [|now apply (@struct_same (main_config fl checks))|now apply (@union_same (main_config fl checks))].
  destruct T as [c' (zs & V & (r & o & g))]. split; [exact c'|]. exists zs. split; [exact V|].
  split; [exact r|]. split; [exact o|]. intros _. exact (N x y l zs I V).
Qed.
Lemma flags_same fl fl' checks t ds : greturns (fun n => parse n t) (GOk ds) -> no_negative_gap ds ->
  (exists f, greturns (fun n => rpcgen n fl checks t) (GOk f)) <->
  exists f, greturns (fun n => rpcgen n fl' checks t) (GOk f).
Proof.
  intros P N. rewrite !(tool_translated _ checks P). split; now apply translatable_same.
Qed.

(** ** Overflow checks *)
Section Checks.
  Variables (cfg : config) (ds : list definition).
  Let off := Config (remove_typedef cfg) (enum_impl_indexer cfg) (enum_impl_std_trait cfg)
    (union_impl_indexer cfg) (union_impl_union cfg) false.
  Let cx := ctx cfg ds.
  Let co := ctx off ds.

  Lemma succ_off s z w : succ_checked (overflow_checks cfg) s z = GOk w -> succ_checked false s z = GOk w.
  Proof. unfold succ_checked. destruct (z <? _); [easy|]. now destruct (overflow_checks cfg). Qed.
  Lemma enum_values_off l : forall s vs, enum_values cx s l = GOk vs -> enum_values co s l = GOk vs.
  Proof.
    induction l as [|[e x] l IH]; intros s vs H; [exact H|]. cbn [enum_values] in *.
    apply gbind_ok in H as (fl & E1 & H). apply gbind_ok in H as (it & E2 & H). apply gbind_ok in H as (s' & E3 & H).
    apply gbind_ok in H as (vs' & E4 & H). change (enum_complement_index (cx_config co)) with (enum_complement_index (cx_config cx)).
    rewrite E1. cbn [gbind]. rewrite E2. cbn [gbind]. change (overflow_checks (cx_config co)) with false. rewrite (succ_off E3). cbn [gbind].
    rewrite (IH _ _ E4). exact H.
  Qed.
  Lemma enum_off n x l e : convert_enum_token cx n x l = GOk e -> convert_enum_token co n x l = GOk e.
  Proof.
    unfold convert_enum_token. intros H. apply gbind_ok in H as (ix & E1 & H). apply gbind_ok in H as (ni & E2 & H).
    apply gbind_ok in H as (vs & E3 & H). change (resolve_value co) with (resolve_value cx). rewrite E1. cbn [gbind]. cbv zeta.
    rewrite E2. cbn [gbind]. rewrite (enum_values_off E3). exact H.
  Qed.
  Lemma values_off n t l : forall s acc p, union_values cx n t s l acc = GOk p -> union_values co n t s l acc = GOk p.
  Proof.
    induction l as [|[[z d] v] l IH]; intros s acc p H; [exact H|]. cbn [union_values] in *.
    apply gbind_ok in H as (fl & E1 & H). apply gbind_ok in H as (ct & E2 & H). apply gbind_ok in H as (bv & E3 & H).
    apply gbind_ok in H as (s' & E4 & H). change (union_complement_index (cx_config co)) with (union_complement_index (cx_config cx)).
    rewrite E1. cbn [gbind]. change (convert_case_token co n v d t) with (convert_case_token cx n v d t). rewrite E2. cbn [gbind].
    change (is_enum_type co t) with (is_enum_type cx t). rewrite E3. cbn [gbind].
    change (overflow_checks (cx_config co)) with false. rewrite (succ_off E4). cbn [gbind]. now apply IH.
  Qed.
  Lemma union_off n x u i : convert_union_token cx n x u = GOk i -> convert_union_token co n x u = GOk i.
  Proof.
    destruct u as [c specs dflt]. cbn [convert_union_token]. intros H. apply gbind_ok in H as (ni & E1 & H).
    apply gbind_ok in H as (t & E2 & H). apply gbind_ok in H as (p & E3 & H). rewrite E1. cbn [gbind]. rewrite E2. cbn [gbind].
    match goal with |- gbind ?r _ = _ => assert (E : r = GOk p) end; [|rewrite E; exact H].
    destruct t; try discriminate E3.
    - apply gbind_ok in E3 as (vals & E4 & E5). change (resolve_value co) with (resolve_value cx). rewrite E4. cbn [gbind]. now apply values_off.
    - exact E3.
    - apply gbind_ok in E3 as (vals & E4 & E5). change (resolve_value co) with (resolve_value cx). rewrite E4. cbn [gbind]. now apply values_off.
  Qed.
  Lemma type_off n p l : type_token_of cx n p = GOk l -> type_token_of co n p = GOk l.
  Proof.
    destruct p as [x [d|y m|y m|y u]]; cbn [type_token_of]; intros H; try exact H.
    - apply gbind_ok in H as (e & E & H). rewrite (enum_off E). exact H.
    - apply gbind_ok in H as (e & E & H). rewrite (union_off E). exact H.
  Qed.
  Lemma gmap_off {A B} (f g : A -> gres B) l bs : (forall a b, f a = GOk b -> g a = GOk b) -> gmap f l = GOk bs -> gmap g l = GOk bs.
  Proof.
    intros K H. apply gmap_ok in H. apply gmap_intro. induction H as [|a b l bs h H IH]; constructor; auto.
  Qed.
  Lemma gen_off n f : gen_code n cfg ds = GOk f -> gen_code n off ds = GOk f.
  Proof.
    rewrite !gen_code_eq. intros H. apply gbind_ok in H as (c & E1 & H). apply gbind_ok in H as (t & E2 & H).
    change (constants_token (ctx off ds)) with (constants_token (ctx cfg ds)). rewrite E1. cbn [gbind].
    unfold types_token in *. apply gbind_ok in E2 as (ls & E2 & E3).
    change (typedefs (ctx off ds)) with (typedefs (ctx cfg ds)).
    change (ctx off ds) with co. rewrite (gmap_off (@type_off n) E2). cbn [gbind] in *. injection E3 as <-. exact H.
  Qed.
End Checks.

Lemma checks_same fl t f : greturns (fun n => rpcgen n fl true t) (GOk f) -> greturns (fun n => rpcgen n fl false t) (GOk f).
Proof.
  intros [_ [N H]]. split; [easy|]. exists N. intros n L. specialize (H n L). unfold rpcgen in *.
  apply gbind_ok in H as (ds & E & H). rewrite E. cbn [gbind]. exact (gen_off H).
Qed.
