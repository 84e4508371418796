(** C117: exactly on which interface files the generator panics. *)
From Verif Require Import Base RustTypes Nom NomFacts Keyword Ast ParserModel SpecGrammar SpecParse ParseSound ParserLemmas ConstProofs
  CaseModel SpecCase CaseProofs RustAst GenModel SpecGen SpecItems GenFacts GenTotal GenPanic GenLemmas WireBase
  SpecTranslate TranslateProofs TranslateGen TranslateUnion SpecToolPanic.
Set Implicit Arguments.
Unset Strict Implicit.
Local Open Scope list_scope.

(** ** Combinators *)
Definition pruns {A} (f : nat -> gres A) : Prop := exists N, forall n, (N <= n)%nat -> f n = GPanic.
Lemma pruns_const {A} (r : gres A) : r = GPanic -> pruns (fun _ => r).
Proof. intros ->. now exists O. Qed.
Lemma pruns_fst {A B} (f : nat -> gres A) (g : nat -> A -> gres B) : pruns f -> pruns (fun n => gbind (f n) (g n)).
Proof. intros [N H]. exists N. intros n L. now rewrite H. Qed.
Lemma pruns_snd {A B} (f : nat -> gres A) (g : nat -> A -> gres B) a N : (forall n, (N <= n)%nat -> f n = GOk a) ->
  pruns (fun n => g n a) -> pruns (fun n => gbind (f n) (g n)).
Proof. intros H [M K]. exists (max N M). intros n L. rewrite H by lia. cbn. apply K. lia. Qed.
Lemma pruns_gmap {A B} (f : nat -> A -> gres B) a x b : (forall y, In y a -> runs (fun n => f n y)) -> pruns (fun n => f n x) ->
  pruns (fun n => gmap (f n) (a ++ x :: b)).
Proof.
  intros H K. induction a as [|y a IH]; cbn [app gmap].
  - now apply pruns_fst.
  - destruct (H y (or_introl eq_refl)) as (c & N & R). eapply pruns_snd; [exact R|].
    apply pruns_fst. apply IH. intros z Hz. apply H. now right.
Qed.
Lemma gbind_panic {A B} (r : gres A) (f : A -> gres B) : gbind r f = GPanic -> r = GPanic \/ exists a, r = GOk a /\ f a = GPanic.
Proof. destruct r; cbn; try discriminate; eauto. Qed.
Lemma gmap_panic {A B} (f : A -> gres B) l : gmap f l = GPanic ->
  exists a x b, l = a ++ x :: b /\ f x = GPanic /\ forall y, In y a -> exists c, f y = GOk c.
Proof.
  induction l as [|x l IH]; cbn; [discriminate|]. intros H. apply gbind_panic in H as [H|(c & E & H)].
  - exists [], x, l. easy.
  - apply gbind_panic in H as [H|(cs & _ & H)]; [|discriminate]. destruct (IH H) as (a & y & b & -> & P & O).
    exists (x :: a), y, b. split; [easy|]. split; [easy|]. intros z [<-|Hz]; eauto.
Qed.

Lemma camel_panic x : ~ camelable x -> upper_camel_case_ident x = GPanic.
Proof.
  intros H. destruct (upper_camel_case_ident x) as [y|e| |] eqn:E; [exfalso; apply H; exact (camel_needs E)| |easy|];
    unfold upper_camel_case_ident, ident_new in E; destruct (ident_text _); discriminate.
Qed.
Lemma camel_not x : good_name x -> upper_camel_case_ident x = GPanic -> ~ camelable x.
Proof. intros g E c. rewrite camel_ident in E by easy. discriminate. Qed.
Lemma camel_dec x : camelable x \/ ~ camelable x.
Proof. unfold camelable, starts. destruct (letters _) as [|c l]; [now right|]. destruct (is_alpha c); [now left|now right]. Qed.
Lemma value_panic k b v : good_value v -> convert_value_token k b v = GPanic -> b = true /\ ~ label_ok v.
Proof.
  intros g. destruct v as [c|x]; cbn.
  - destruct (constant_result k c) as [[z E]|E]; rewrite E; discriminate.
  - destruct b; [|now rewrite plain_ident]. intros H. apply gbind_panic in H as [H|(y & _ & H)]; [|discriminate].
    split; [easy|]. now apply camel_not.
Qed.

(** ** A stable sort *)
Section Sort.
  Context {A : Type} (key : A -> Z).
  Lemma insert_split x l : exists A1 B1, insert_by key x l = A1 ++ x :: B1 /\ l = A1 ++ B1 /\
    (forall r, In r A1 -> key r < key x) /\ (ascending key l -> forall r, In r B1 -> key x <= key r).
  Proof.
    induction l as [|y l IH]; cbn; [now exists [], []|]. destruct (Z.leb_spec (key x) (key y)).
    - exists [], (y :: l). split; [easy|]. split; [easy|]. split; [easy|]. intros Asc r [<-|Hr]; [easy|].
      inversion Asc as [|? ? K _]; subst. specialize (K r Hr). lia.
    - destruct IH as (A1 & B1 & E1 & E2 & K1 & K2). exists (y :: A1), B1. rewrite E1, E2. split; [easy|]. split; [easy|].
      split; [intros r [<-|Hr]; [lia|now apply K1]|]. intros Asc. inversion Asc as [|? ? _ Asc']; subst. now apply K2.
  Qed.

  (** where an element of the list goes *)
  Lemma sort_goes a q b : exists A1 B1, sort_by key (a ++ q :: b) = A1 ++ q :: B1 /\
    forall r, In r A1 -> (In r a /\ key r <= key q) \/ (In r b /\ key r < key q).
  Proof.
    induction a as [|y a IH]; cbn [app].
    - change (sort_by key (q :: b)) with (insert_by key q (sort_by key b)).
      destruct (insert_split q (sort_by key b)) as (A1 & B1 & E1 & E2 & K1 & _). exists A1, B1. split; [easy|].
      intros r Hr. right. split; [|now apply K1]. apply (sort_by_in key). rewrite E2. apply in_app_iff. now left.
    - destruct IH as (A1 & B1 & E & K).
      change (sort_by key (y :: a ++ q :: b)) with (insert_by key y (sort_by key (a ++ q :: b))).
      destruct (insert_split y (sort_by key (a ++ q :: b))) as (A2 & B2 & E1 & E2 & K1 & K2).
      specialize (K2 (sort_by_asc key _)). rewrite E1. rewrite E in E2.
      assert (C : (exists M, A1 = A2 ++ M /\ B2 = M ++ q :: B1) \/ (exists M, A2 = A1 ++ q :: M /\ B1 = M ++ B2)).
      { clear - E2. revert A2 E2. induction A1 as [|c A1 IH]; intros [|d A2] E2; cbn in E2.
        - left. exists []. easy.
        - right. injection E2 as <- E2. exists A2. easy.
        - left. exists (c :: A1). easy.
        - injection E2 as <- E2. destruct (IH _ E2) as [(M & -> & ->)|(M & -> & ->)]; [left|right]; exists M; easy. }
      destruct C as [(M & -> & ->)|(M & -> & ->)].
      + exists (A2 ++ y :: M), B1. split; [now rewrite <- app_assoc|]. intros r Hr. apply in_app_iff in Hr as [Hr|[<-|Hr]].
        * destruct (K r) as [[]|[]]; [apply in_app_iff; now left| |]; [left|right]; split; try easy. now right.
        * left. split; [now left|]. apply K2. apply in_app_iff. right. now left.
        * destruct (K r) as [[]|[]]; [apply in_app_iff; now right| |]; [left|right]; split; try easy. now right.
      + exists A1, (M ++ y :: B2). split; [now rewrite <- app_assoc|]. intros r Hr.
        destruct (K r Hr) as [[]|[]]; [left|right]; split; try easy. now right.
  Qed.
  (** and where an element of the sorted list comes from *)
  Lemma sort_from l : forall A1 q B1, sort_by key l = A1 ++ q :: B1 -> exists a b, l = a ++ q :: b /\
    (forall r, In r a -> key r <= key q -> In r A1) /\ (forall r, In r b -> key r < key q -> In r A1).
  Proof.
    induction l as [|y l IH]; intros A1 q B1 E; [destruct A1; discriminate|]. change (sort_by key (y :: l)) with (insert_by key y (sort_by key l)) in E.
    pose proof (sort_by_asc key l) as Asc.
    destruct (insert_split y (sort_by key l)) as (A2 & B2 & E1 & E2 & K1 & K2). specialize (K2 Asc). rewrite E1 in E.
    assert (C : (exists M, A1 = A2 ++ y :: M /\ B2 = M ++ q :: B1) \/ (A1 = A2 /\ q = y /\ B1 = B2) \/
      (exists M, A2 = A1 ++ q :: M /\ B1 = M ++ y :: B2)).
    { clear - E. revert A2 E. induction A1 as [|c A1 IH]; intros [|d A2] E; cbn in E.
      - injection E as <- <-. right. now left.
      - injection E as <- <-. right. right. exists A2. easy.
      - injection E as <- ->. left. exists A1. easy.
      - injection E as <- E. destruct (IH _ E) as [(M & -> & ->)|[(-> & -> & ->)|(M & -> & ->)]].
        + left. now exists M.
        + right. now left.
        + right. right. now exists M. }
    destruct C as [(M & -> & ->)|[(-> & -> & ->)|(M & -> & ->)]].
    - destruct (IH (A2 ++ M) q B1) as (a & b & -> & H1 & H2); [now rewrite E2, <- app_assoc|].
      exists (y :: a), b. split; [easy|]. split.
      + intros r [<-|Hr] L; [apply in_app_iff; right; now left|]. specialize (H1 r Hr L). apply in_app_iff in H1 as [H1|H1]; apply in_app_iff; [now left|right; now right].
      + intros r Hr L. specialize (H2 r Hr L). apply in_app_iff in H2 as [H2|H2]; apply in_app_iff; [now left|right; now right].
    - exists [], l. split; [easy|]. split; [easy|]. intros r Hr L. apply (sort_by_in key) in Hr. rewrite E2 in Hr.
      apply in_app_iff in Hr as [Hr|Hr]; [easy|]. specialize (K2 r Hr). lia.
    - destruct (IH A1 q (M ++ B2)) as (a & b & -> & H1 & H2); [now rewrite E2, <- app_assoc|].
      exists (y :: a), b. split; [easy|]. split; [|easy]. intros r [<-|Hr] L; [|now apply H1].
      exfalso. assert (Lq : key q < key y) by (apply K1; apply in_app_iff; right; now left). lia.
  Qed.
End Sort.

Section Panics.
  Variables (cfg : config) (ds : list definition).
  Let cx := ctx cfg ds.
  Hypothesis G : good_spec ds.

  (** ** Types *)
  Lemma decl_panic_intro rt d t : mentions d = Some t -> convert_primitive_token rt t = GPanic -> convert_type_token rt d = GPanic.
  Proof. destruct d; cbn; try discriminate; intros [= <-] E; rewrite E; easy. Qed.
  Lemma decl_panic rt d : good_decl d -> convert_type_token rt d = GPanic ->
    exists t, mentions d = Some t /\ convert_primitive_token rt t = GPanic.
  Proof.
    intros g H. destruct d; cbn [convert_type_token mentions good_decl] in *; try discriminate;
      apply gbind_panic in H as [H|(r & E & H)]; try (now exists t); try discriminate.
    - destruct r. apply gbind_panic in H as [H|(u & _ & H)]; [|discriminate]. apply value_panic in H; [easy|tauto].
    - destruct r. discriminate.
    - apply value_panic in H; [easy|tauto].
    - destruct r. discriminate.
  Qed.
  Lemma unnamed_runs t : unnamed cfg ds t -> pruns (fun n => convert_primitive_token (resolve_type_token cx n) t).
  Proof.
    induction 1 as [x H c|x d t H m U [N R]].
    - exists 1%nat. intros [|n] L; [lia|]. cbn [convert_primitive_token].
      destruct (resolve_cases cfg ds n x) as [(d & D & _)|[_ E]]; [exfalso; now apply (H d)|]. unfold cx. rewrite E, camel_panic by easy. easy.
    - exists (S N). intros [|n] L; [lia|]. cbn [convert_primitive_token].
      destruct (resolve_cases cfg ds n x) as [(d' & D & E)|[M _]]; [|exfalso; now apply (M d)].
      rewrite (TranslateProofs.stands_fun D H) in E. unfold cx in *. rewrite E, (decl_panic_intro m (R n ltac:(lia))). easy.
  Qed.
  Lemma unnamed_inv n : forall t, good_type t -> t <> TsVoid ->
    convert_primitive_token (resolve_type_token cx n) t = GPanic -> unnamed cfg ds t.
  Proof.
    induction n as [|n IH]; intros t g nv H; destruct t; try discriminate; try easy. cbn [convert_primitive_token] in H.
    destruct (resolve_cases cfg ds n x) as [(d & D & E)|[M E]]; unfold cx in H; rewrite E in H.
    - destruct (stands_good G D) as [gd vd]. apply gbind_panic in H as [H|(o & _ & H)]; [|now destruct o].
      destruct (decl_panic gd H) as (t & m & P). destruct (good_mentions gd m) as [gt vt].
      apply un_other with d t; try easy. now apply IH.
    - apply gbind_panic in H as [H|(o & _ & H)]; [|discriminate]. apply un_name; [easy|]. now apply camel_not.
  Qed.
  Lemma decl_unnamed_runs d : decl_unnamed cfg ds d -> pruns (fun n => convert_type_token (resolve_type_token cx n) d).
  Proof. intros (t & m & U). destruct (unnamed_runs U) as [N R]. exists N. intros n L. exact (decl_panic_intro m (R n L)). Qed.
  Lemma decl_unnamed_inv n d : good_decl d -> convert_type_token (resolve_type_token cx n) d = GPanic -> decl_unnamed cfg ds d.
  Proof.
    intros g H. destruct (decl_panic g H) as (t & m & P). exists t. split; [easy|]. destruct (good_mentions g m) as [gt vt]. exact (unnamed_inv gt vt P).
  Qed.

  (** ** Enums *)
  Lemma enum_values_total l : forall s, (exists vs, enum_values cx s l = GOk vs) \/ enum_values cx s l = GPanic.
  Proof.
    induction l as [|[e x] l IH]; intros s; [cbn; eauto|]. cbn [enum_values]. change (cx_config cx) with cfg.
    assert (F : (exists fl, (if enum_complement_index cfg
                   then gmap (fun z => gbind (reserved z) (fun r => GOk (r, z))) (zrange s e) else GOk []) = GOk fl) \/
       (if enum_complement_index cfg
                   then gmap (fun z => gbind (reserved z) (fun r => GOk (r, z))) (zrange s e) else GOk []) = GPanic).
    { destruct (enum_complement_index cfg); [|eauto]. induction (zrange s e) as [|z zs IHz]; [cbn; eauto|]. cbn [gmap].
      destruct (Z_lt_ge_dec z 0) as [N|N]; [rewrite reserved_neg by lia; now right|]. rewrite reserved_ok by lia. cbn [gbind].
      destruct IHz as [[fl E]|E]; rewrite E; cbn; eauto. }
    destruct F as [[fl E]|E]; rewrite E; cbn [gbind]; [|now right].
    destruct (upper_camel_case_ident x) as [y| | |] eqn:C; cbn [gbind]; [| | now right|];
      [|unfold upper_camel_case_ident, ident_new in C; destruct (ident_text _); discriminate..].
    unfold succ_checked. destruct (e <? _); [|destruct (overflow_checks cfg); [now right|]]; cbn [gbind];
      match goal with |- context [enum_values cx ?s' l] => destruct (IH s') as [[vs V]|V]; rewrite V; cbn; eauto end.
  Qed.
  Lemma enum_pruns x y l : In (x, TdEnum y l) (type_defs ds) -> type_panics cfg ds (x, TdEnum y l) ->
    pruns (fun n => convert_enum_token cx n x l).
  Proof.
    intros H [(zs & V) K]. cbn [fst] in K. destruct (good_types G H) as [gt nx]. cbn in gt.
    destruct gt as (_ & ne & gl).
    assert (R : exists N, forall n, (N <= n)%nat ->
      gmap (fun a => gbind (resolve_value cx n KI32 (as_value a)) (fun z => GOk (z, as_name a))) l = GOk (combine zs (map as_name l))).
    { clear - V gl G. induction V as [|a z l zs [h k] V IH]; [now exists O|].
      inversion gl as [|? ? [ga gv] gl']; subst. destruct (IH gl') as [M HM].
      destruct (@value_runs cfg ds G KI32 _ z gv h) as [N HN]; [cbn; lia|]. exists (max N M). intros n L. cbn.
      unfold cx. rewrite HN by lia. cbn. fold cx. rewrite HM by lia. easy. }
    destruct R as [N R]. set (ix := combine zs (map as_name l)) in *.
    assert (A : Forall (fun p => fits KI32 (fst p) /\ good_name (snd p)) ix /\ map fst ix = zs /\ map snd ix = map as_name l /\
      Forall2 (fun a z => number_is ds KI32 (as_value a) z) l zs).
    { clear - V gl. subst ix. induction V as [|a z l zs [h k] V IH]; [cbn; split; [constructor|split; [easy|split; [easy|constructor]]]|].
      inversion gl as [|? ? [ga gv] gl']; subst.
      destruct (IH gl') as (h1 & h2 & h3 & h4). cbn [combine map fst snd].
      split; [constructor; [split; [cbn; lia|easy]|easy]|]. split; [now rewrite h2|]. split; [now rewrite h3|now constructor]. }
    destruct A as (A1 & A2 & A3 & A4).
    unfold convert_enum_token. eapply pruns_snd; [exact R|]. cbv zeta.
    destruct (camel_dec x) as [c|c]; [|rewrite camel_panic by easy; now apply pruns_const].
    rewrite camel_ident; [|cbn in nx; injection nx as <-; now destruct (good_types G H) as [[]]|easy]. cbn [gbind].
    destruct (enum_values_total (sort_by fst ix) 0) as [E|E]; [|rewrite E; now apply pruns_const].
    exfalso. apply K. split; [exact c|]. apply (enum_numbers cfg ds A1) in E as [E1 E2]. split.
    - apply Forall_map. rewrite <- A3. now apply Forall_map.
    - exists zs. split; [exact A4|]. now rewrite A2 in E2.
  Qed.
  Lemma enum_panics_inv n x y l : In (x, TdEnum y l) (type_defs ds) -> convert_enum_token cx n x l = GPanic ->
    type_panics cfg ds (x, TdEnum y l).
  Proof.
    intros H C. destruct (good_types G H) as [gt nx]. cbn in gt. assert (gx : good_name x) by (cbn in nx; injection nx as <-; apply gt).
    destruct gt as (_ & ne & gl).
    unfold convert_enum_token in C. apply gbind_panic in C as [C|(ix & E & C)].
    { apply gmap_panic in C as (a & b & d & _ & P & _). apply gbind_panic in P as [P|(z & _ & P)]; [|discriminate].
      now apply resolve_value_result in P. }
    apply gmap_ok in E.
    assert (A : Forall2 (fun a z => number_is ds KI32 (as_value a) z /\ - 2 ^ 31 <= z < 2 ^ 31) l (map fst ix) /\
      Forall (fun p => fits KI32 (fst p) /\ good_name (snd p)) ix /\ map as_name l = map snd ix).
    { clear - E gl G. induction E as [|a p l ix h E IH]; [cbn; split; [constructor|split; [constructor|easy]]|].
      inversion gl as [|? ? [ga gv] gl']; subst. destruct (IH gl') as (h1 & h2 & h3).
      apply gbind_ok in h as (z & R & [= <-]). destruct (number_found G gv R) as [V Fz]. cbn [map fst snd].
      split; [constructor; [split; [easy|cbn in Fz; lia]|easy]|]. split; [now constructor|]. now rewrite h3. }
    destruct A as (A1 & A2 & A3). split; [now exists (map fst ix)|]. cbn [fst]. intros [c [cl (zs & V & Nz)]].
    assert (zs = map fst ix) as ->.
    { clear - cfg A1 V G gl. revert zs V. induction A1 as [|a z l zs' [h _] A1 IH]; intros zs V; inversion V as [|? w ? ws v V']; subst; [easy|].
      inversion gl as [|? ? [ga gv] gl']; subst. f_equal; [exact (number_fun cfg G gv v h)|]. now apply IH. }
    assert (E' : exists vs, enum_values cx 0 (sort_by fst ix) = GOk vs).
    { apply (enum_numbers cfg ds A2). split; [|easy]. apply Forall_map. rewrite <- A3. now apply Forall_map. }
    destruct E' as [vs E']. cbv zeta in C. rewrite camel_ident, E' in C by easy. cbn [gbind] in C.
    rewrite (@gmap_map _ _ _ (fun p => (camel (snd p), fst p))) in C.
    - destruct (sort_by fst ix) as [|p q] eqn:e; [|discriminate].
      assert (ix = []) as -> by (apply Permutation.Permutation_nil; rewrite <- e; apply sort_by_perm). inversion E; subst. easy.
    - intros p Hp. apply sort_by_in in Hp. rewrite Forall_forall in A2.
      rewrite camel_ident; [easy|now apply A2|]. assert (S : Forall camelable (map snd ix)) by (rewrite <- A3; now apply Forall_map).
      rewrite Forall_forall in S. apply S. now apply in_map.
  Qed.

  (** ** Structs *)
  Lemma field_needs n x d f : good_decl d -> struct_field cx n x d = GOk f -> member_ok cfg ds d.
  Proof.
    intros g F. unfold struct_field in F. destruct (decl_name d) as [z|] eqn:e; [|discriminate].
    apply gbind_ok in F as (o & To & F). apply gbind_ok in F as ([ty op] & _ & F). cbv zeta in F.
    apply gbind_ok in F as (i & Fi & _). split; [exact (expressible_inv G g To)|].
    exists z. split; [rewrite <- e; now destruct d|]. exact (raw_needs Fi).
  Qed.
  Lemma field_runs x d : good_decl d -> member_ok cfg ds d -> runs (fun n => struct_field cx n x d).
  Proof.
    intros gl [ex (z & Dz & Nz)]. destruct (expressible_runs G ex gl) as (o & N & T & no). unfold struct_field.
    replace (decl_name d) with (Some z) by (rewrite <- Dz; now destruct d).
    eapply runs_bind; [exact T|]. destruct o as [[ty op]|]; [|exfalso; apply no; [|easy]; intros ->; discriminate].
    cbn [required gbind]. cbv zeta. assert (gz : good_name z) by exact (good_declared gl Dz).
    rewrite (field_name_ok gz Nz). eapply runs_const. reflexivity.
  Qed.
  Lemma field_panic_inv n x d : good_decl d -> struct_field cx n x d = GPanic -> member_panics cfg ds d.
  Proof.
    intros g F. unfold struct_field in F. destruct (decl_name d) as [z|] eqn:e; [|left; now destruct d].
    right. apply gbind_panic in F as [F|(o & To & F)]; [left; exact (decl_unnamed_inv g F)|right].
    split; [exact (expressible_inv G g To)|]. exists z. assert (Dz : declared d = Some z) by (rewrite <- e; now destruct d).
    split; [easy|]. apply gbind_panic in F as [F|([ty op] & _ & F)]; [now destruct o|]. cbv zeta in F.
    apply gbind_panic in F as [F|(i & _ & F)]; [|discriminate].
    destruct (in_dec string_dec z unusable) as [I|I]; [exact I|].
    rewrite (field_name_ok (good_declared g Dz) I) in F. discriminate.
  Qed.
  Lemma field_pruns x d : good_decl d -> member_panics cfg ds d -> pruns (fun n => struct_field cx n x d).
  Proof.
    intros g [->|[U|[ex (z & Dz & Iz)]]].
    - now exists O.
    - unfold struct_field. destruct (decl_name d) as [z|] eqn:e; [|now apply pruns_const]. apply pruns_fst. now apply decl_unnamed_runs.
    - destruct (expressible_runs G ex g) as (o & N & T & no). unfold struct_field.
      replace (decl_name d) with (Some z) by (rewrite <- Dz; now destruct d).
      eapply pruns_snd; [exact T|]. destruct o as [[ty op]|]; [|exfalso; apply no; [|easy]; intros ->; discriminate].
      cbn [required gbind]. cbv zeta.
      assert (E : snake_case_ident (if rust_reserved z then "r#" ++ z else z)%string = GPanic)
        by (destruct Iz as [<-|[<-|[<-|[<-|[]]]]]; vm_compute; reflexivity).
      rewrite E. now apply pruns_const.
  Qed.
  Lemma struct_pruns x y l : In (x, TdStruct y l) (type_defs ds) -> type_panics cfg ds (x, TdStruct y l) ->
    pruns (fun n => convert_struct_token cx n x l).
  Proof.
    intros H P. destruct (good_types G H) as [gt nx]. cbn in gt. destruct gt as (_ & _ & gl). rewrite Forall_forall in gl.
    unfold convert_struct_token. destruct P as [(a & d & b & -> & F & P)|[F c]].
    - apply pruns_fst. apply pruns_gmap.
      + intros z Hz. rewrite Forall_forall in F. apply field_runs; [|now apply F]. apply gl. apply in_app_iff. now left.
      + apply field_pruns; [|easy]. apply gl. apply in_app_iff. right. now left.
    - destruct (@runs_gmap _ _ (fun n => struct_field cx n x) l) as (fs & N & R).
      + intros d Hd. rewrite Forall_forall in F. apply field_runs; auto.
      + eapply pruns_snd; [exact R|]. cbn [fst] in c. rewrite camel_panic by easy. now apply pruns_const.
  Qed.
  Lemma struct_panics_inv n x y l : In (x, TdStruct y l) (type_defs ds) -> convert_struct_token cx n x l = GPanic ->
    type_panics cfg ds (x, TdStruct y l).
  Proof.
    intros H C. destruct (good_types G H) as [gt nx]. cbn in gt. assert (gx : good_name x) by (cbn in nx; injection nx as <-; apply gt).
    destruct gt as (_ & _ & gl). rewrite Forall_forall in gl.
    unfold convert_struct_token in C. unfold type_panics. cbn [fst snd]. apply gbind_panic in C as [C|(fs & E & C)].
    - left. apply gmap_panic in C as (a & d & b & -> & P & O). exists a, d, b. split; [easy|]. split.
      + apply Forall_forall. intros z Hz. destruct (O z Hz) as [f F]. apply (@field_needs n x z f); [|easy]. apply gl. apply in_app_iff. now left.
      + apply (@field_panic_inv n x); [|easy]. apply gl. apply in_app_iff. right. now left.
    - right. split.
      + apply Forall_forall. intros d Hd. destruct (gmap_in E Hd) as [f F]. exact (field_needs (gl d Hd) F).
      + apply gbind_panic in C as [C|(ni & _ & C)]; [|discriminate]. now apply camel_not.
  Qed.
End Panics.
