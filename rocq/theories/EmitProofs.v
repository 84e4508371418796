(** Parts of a protocol file that do not influence the generated code. *)
From Coq Require Import Permutation.
From Verif Require Import Base RustTypes Nom NomFacts Keyword Ast ParserModel SpecGrammar SpecParse
  ConstProofs CaseModel SpecCase CaseProofs RustAst GenModel SpecGen SpecItems GenFacts GenTotal GenLemmas SpecXdl GenSem SpecWire WireBase SpecEmit EmitBase.
Set Implicit Arguments.
Unset Strict Implicit.
Local Open Scope list_scope.

Lemma flat_map_map {A B C} (f : A -> B) (g : B -> list C) l : flat_map g (map f l) = flat_map (fun a => g (f a)) l.
Proof. induction l as [|a l IH]; cbn; [easy|]. now rewrite IH. Qed.
Lemma gmap_map {A B C} (f : A -> B) (g : B -> gres C) l : gmap g (map f l) = gmap (fun a => g (f a)) l.
Proof. induction l as [|a l IH]; cbn; [easy|]. now rewrite IH. Qed.
Lemma existsb_map {A B} (f : A -> B) g l : existsb g (map f l) = existsb (fun a => g (f a)) l.
Proof. induction l as [|a l IH]; cbn; [easy|]. now rewrite IH. Qed.
Lemma existsb_ext_in {A} (f g : A -> bool) l : (forall a, In a l -> f a = g a) -> existsb f l = existsb g l.
Proof. induction l as [|a l IH]; cbn; intros H; [easy|]. rewrite IH, (H a); auto. Qed.
Lemma assoc_map_snd {A B} (f : A -> B) x (l : list (string * A)) :
  assoc String.eqb x (map (fun p => (fst p, f (snd p))) l) = option_map f (assoc String.eqb x l).
Proof. induction l as [|[y a] l IH]; cbn; [easy|]. now destruct (String.eqb x y). Qed.
Lemma insert_by_map {A B} (f : A -> B) key key' a l : (forall a, key' (f a) = key a) ->
  insert_by key' (f a) (map f l) = map f (insert_by key a l).
Proof.
  intros H. induction l as [|b l IH]; cbn; [easy|]. rewrite !H. destruct (key a <=? key b)%Z; cbn; [easy|]. now rewrite IH.
Qed.
Lemma sort_by_map {A B} (f : A -> B) key key' l : (forall a, key' (f a) = key a) ->
  sort_by key' (map f l) = map f (sort_by key l).
Proof. intros H. unfold sort_by. induction l as [|a l IH]; cbn; [easy|]. rewrite IH. now apply insert_by_map. Qed.
Lemma concat_map_map {A B} (f : A -> B) l : concat (map (map f) l) = map f (concat l).
Proof. induction l as [|a l IH]; cbn; [easy|]. now rewrite IH, map_app. Qed.
Definition gres_map {A B} (f : A -> B) (r : gres A) : gres B :=
  match r with GOk a => GOk (f a) | GErr e => GErr e | GPanic => GPanic | GFuel => GFuel end.
Lemma gmap_gres {A B C} (f : B -> C) (g : A -> gres B) l : gmap (fun a => gres_map f (g a)) l = gres_map (map f) (gmap g l).
Proof.
  induction l as [|a l IH]; cbn; [easy|]. rewrite IH. destruct (g a); cbn; try easy. now destruct (gmap g l).
Qed.
Lemma gbind_map {A B C} (f : A -> B) (r : gres A) (g : B -> gres C) : gbind (gres_map f r) g = gbind r (fun a => g (f a)).
Proof. now destruct r. Qed.

(** resolution of values depends on constants and members only *)
Lemma resolve_name_ext cx cx' : (forall x, assoc String.eqb x (constants cx) = assoc String.eqb x (constants cx')) ->
  (forall x, find_member x (typedefs cx) = find_member x (typedefs cx')) ->
  forall n k x, resolve_name cx n k x = resolve_name cx' n k x.
Proof.
  intros HC HM n k. induction n as [|n IH]; intros x; cbn [resolve_name]; [easy|]. rewrite HC, HM.
  destruct (assoc _ x (constants cx')) as [[c|i]|]; rewrite ?IH; destruct (find_member x (typedefs cx')) as [[c'|i']|]; rewrite ?IH; easy.
Qed.

(** ** Maximum sizes *)
Section Max.
  Variables (cfg : config) (ds : list definition).
  Let ds' := map def_without_max ds.
  Let strip (p : string * typedef) := (fst p, type_without_max (snd p)).

  Lemma max_consts : const_defs ds' = const_defs ds.
  Proof.
    unfold const_defs, ds'. rewrite flat_map_map. clear. induction ds as [|d l IH]; cbn; [easy|]. rewrite IH. now destruct d.
  Qed.
  Lemma max_declared d : declared (without_max d) = declared d.
  Proof. now destruct d. Qed.
  Lemma max_types : type_defs ds' = map strip (type_defs ds).
  Proof.
    unfold type_defs, ds'. rewrite flat_map_map. clear. induction ds as [|d l IH]; cbn; [easy|]. rewrite IH, map_app. f_equal.
    destruct d as [[d| | |]| | |]; try easy. cbn. rewrite max_declared. now destruct (declared d).
  Qed.
  Lemma max_token rt d : convert_type_token rt (without_max d) = convert_type_token rt d.
  Proof. now destruct d. Qed.

  Let cx := ctx cfg ds.
  Let cx' := ctx cfg ds'.
  Lemma max_members x : find_member x (typedefs cx') = find_member x (typedefs cx).
  Proof.
    rewrite !find_member_assoc. cbn. rewrite max_types, flat_map_map. f_equal. apply flat_map_ext. intros [y t]. now destruct t.
  Qed.
  Lemma max_name n k x : resolve_name cx' n k x = resolve_name cx n k x.
  Proof. apply resolve_name_ext; [|apply max_members]. intros y. cbn. now rewrite max_consts. Qed.
  Lemma max_enum t : is_enum_type cx' t = is_enum_type cx t.
  Proof.
    destruct t; try easy. cbn. rewrite max_types, existsb_map. apply existsb_ext_in. intros [y t] _. now destruct t.
  Qed.
  Lemma max_resolve n x : resolve_type_token cx' n x = resolve_type_token cx n x.
  Proof.
    revert x. induction n as [|n IH]; intros x; cbn [resolve_type_token]; [easy|]. change (cx_config cx') with (cx_config cx).
    destruct (remove_typedef (cx_config cx)); [|easy]. cbn. rewrite max_types. unfold strip. rewrite assoc_map_snd.
    destruct (assoc _ x (type_defs ds)) as [[d| | |]|]; try easy. cbn. rewrite max_token. now rewrite (same_type IH).
  Qed.

  Variable n : nat.
  Lemma max_field x d : struct_field cx n x (without_max d) = struct_field cx n x d.
  Proof. now destruct d. Qed.
  Lemma max_case v d c : convert_case_token cx n v (without_max d) c = convert_case_token cx n v d c.
  Proof. unfold convert_case_token. now rewrite max_token. Qed.
  Let st (q : Z * decl * value) := match q with (z, d, v) => (z, without_max d, v) end.
  Lemma max_union_values c s l acc : union_values cx n c s (map st l) acc = union_values cx n c s l acc.
  Proof.
    revert s acc. induction l as [|[[e d] v] l IH]; intros s acc; cbn [map st union_values]; [easy|]. rewrite max_case.
    apply gbind_ext. intros ? _. apply gbind_ext. intros ? _. apply gbind_ext. intros ? _. apply gbind_ext. intros ? _. apply IH.
  Qed.
  Let sc s := match s with CaseSpec vs d => CaseSpec vs (without_max d) end.
  Lemma max_find test l : find (fun s => match s with CaseSpec vs _ => existsb test vs end) (map sc l) =
    option_map sc (find (fun s => match s with CaseSpec vs _ => existsb test vs end) l).
  Proof. induction l as [|[vs d] l IH]; cbn; [easy|]. now destruct (existsb test vs). Qed.
  Lemma max_bool c b l acc : bool_case cx n c b (map sc l) acc = bool_case cx n c b l acc.
  Proof.
    unfold bool_case. rewrite max_find. destruct (find _ l) as [[vs d]|]; cbn [option_map sc]; [|easy].
    destruct (find _ vs); [|easy]. now rewrite max_case.
  Qed.
  Lemma max_default o acc : union_default cx n (option_map without_max o) acc = union_default cx n o acc.
  Proof. destruct o; cbn [option_map union_default]; [|easy]. now rewrite max_token. Qed.
  Lemma max_union x u : convert_union_token cx n x (union_without_max u) = convert_union_token cx n x u.
  Proof.
    destruct u as [c specs dflt]. cbn [union_without_max]. fold sc. unfold convert_union_token.
    apply gbind_ext. intros nm _. apply gbind_ext. intros t _.
    assert (V : forall B (k : _ -> gres B),
       gbind (gmap (fun s => match s with CaseSpec vs d => gmap (fun v => z <~ resolve_value cx n KU32 v;; GOk (z, d, v)) vs end) (map sc specs)) k =
       gbind (gmap (fun s => match s with CaseSpec vs d => gmap (fun v => z <~ resolve_value cx n KU32 v;; GOk (z, d, v)) vs end) specs) (fun l => k (map (map st) l))).
    { intros B k. rewrite gmap_map, <- (gbind_map (map (map st))). f_equal. rewrite <- gmap_gres. apply gmap_ext. intros [vs d] _. cbn [sc].
      rewrite <- gmap_gres. apply gmap_ext. intros v _. now destruct (resolve_value cx n KU32 v). }
    match goal with |- gbind ?a _ = gbind ?b _ => assert (H : a = b); [|rewrite H] end.
    { assert (U : forall l, union_values cx n t 0 (sort_by (fun p => fst (fst p)) (concat (map (map st) l))) no_parts =
                            union_values cx n t 0 (sort_by (fun p => fst (fst p)) (concat l)) no_parts).
      { intros l. rewrite concat_map_map, (sort_by_map (key := fun p => fst (fst p))) by now intros [[] ]. apply max_union_values. }
      destruct t; try easy.
      - rewrite V. apply gbind_ext. intros l _. apply U.
      - rewrite max_bool. apply gbind_ext. intros p _. now rewrite max_bool.
      - rewrite V. apply gbind_ext. intros l _. apply U. }
    apply gbind_ext. intros p _. rewrite max_default. apply gbind_ext. intros q _. now destruct dflt.
  Qed.
  Lemma max_item p : type_token_of cx n (strip p) = type_token_of cx n p.
  Proof.
    destruct p as [x [d|y l|y l|y u]]; cbn [strip fst snd type_without_max type_token_of].
    - now rewrite max_token.
    - easy.
    - unfold convert_struct_token. rewrite gmap_map. f_equal. f_equal. apply gmap_ext. intros d _. apply max_field.
    - now rewrite max_union.
  Qed.
  Lemma max_ignored : gen_code n cfg ds' = gen_code n cfg ds.
  Proof.
    rewrite !gen_code_eq. unfold constants_token, types_token. fold cx cx'. cbn [constants typedefs cx cx' ctx].
    rewrite max_consts, max_types, gmap_map. apply gbind_ext. intros cs _.
    rewrite (@gmap_ext _ _ (fun p => type_token_of cx' n (strip p)) (type_token_of cx n)); [easy|]. intros p _.
    rewrite <- max_item. apply same_token; [easy|apply max_resolve|apply max_name|apply max_enum].
  Qed.
End Max.

(** ** Programs and % lines *)
Lemma defs_ignored n cfg ds : gen_code n cfg (filter generates ds) = gen_code n cfg ds.
Proof.
  assert (C : const_defs (filter generates ds) = const_defs ds).
  { unfold const_defs. induction ds as [|d l IH]; cbn; [easy|]. destruct d; cbn; now rewrite ?IH. }
  assert (T : type_defs (filter generates ds) = type_defs ds).
  { clear C. unfold type_defs. induction ds as [|d l IH]; cbn; [easy|]. destruct d; cbn; now rewrite ?IH. }
  rewrite !gen_code_eq. unfold ctx. now rewrite C, T.
Qed.

(** ** The order of definitions *)
Lemma flat_map_perm {A B} (f : A -> list B) l m : Permutation l m -> Permutation (flat_map f l) (flat_map f m).
Proof.
  induction 1; cbn; [easy| | |now etransitivity; eauto].
  - now apply Permutation_app_head.
  - rewrite !app_assoc. apply Permutation_app_tail, Permutation_app_comm.
Qed.
Lemma assoc_perm {A} x (l m : list (string * A)) : NoDup (map fst l) -> Permutation l m ->
  assoc String.eqb x l = assoc String.eqb x m.
Proof.
  intros N P. destruct (assoc _ x m) as [v|] eqn:E.
  - apply assoc_in_nodup; [easy|]. apply assoc_first, first_in in E. eapply Permutation_in; [symmetry; exact P|exact E].
  - apply assoc_none. apply assoc_none in E. intros H. apply E. now apply (Permutation_in x (Permutation_map fst P)).
Qed.
Lemma existsb_perm {A} (f : A -> bool) l m : Permutation l m -> existsb f l = existsb f m.
Proof.
  intros P. apply eq_true_iff_eq. rewrite !existsb_exists. split; intros (a & H & E); exists a; (split; [|easy]).
  - eapply Permutation_in; eauto.
  - eapply Permutation_in; [symmetry|]; eauto.
Qed.
Lemma gmap_perm {A B} (f : A -> gres B) l m r : Permutation l m -> gmap f l = GOk r ->
  exists r', gmap f m = GOk r' /\ Permutation r r'.
Proof.
  intros P. revert r. induction P as [|a l m P IH|a b l|l m k P1 IH1 P2 IH2]; intros r H.
  - exists r. easy.
  - cbn in *. destruct (f a); try discriminate. cbn in *. destruct (gmap f l) as [q| | |]; try discriminate. injection H as <-.
    destruct (IH _ eq_refl) as (r' & -> & Q). eexists. split; [reflexivity|]. now constructor.
  - cbn in *. destruct (f a), (f b); try discriminate. cbn in *. destruct (gmap f l) as [q| | |]; try discriminate. injection H as <-.
    eexists. split; [reflexivity|]. constructor.
  - destruct (IH1 _ H) as (r1 & H1 & Q1). destruct (IH2 _ H1) as (r2 & H2 & Q2). exists r2. split; [easy|]. now transitivity r1.
Qed.
Lemma concat_perm {A} (l m : list (list A)) : Permutation l m -> Permutation (concat l) (concat m).
Proof. rewrite <- (map_id l), <- (map_id m), <- !flat_map_concat_map. intros P. apply flat_map_perm. now rewrite !map_id in P. Qed.

Section Order.
  Variables (cfg : config) (ds ds' : list definition).
  Hypothesis P : Permutation ds ds'.
  Hypothesis N : no_redefinition ds.
  Let cx := ctx cfg ds.
  Let cx' := ctx cfg ds'.
  Let PC : Permutation (const_defs ds) (const_defs ds') := flat_map_perm const_of P.
  Let PT : Permutation (type_defs ds) (type_defs ds') := flat_map_perm type_of P.

  Lemma order_name n k x : resolve_name cx n k x = resolve_name cx' n k x.
  Proof.
    destruct N as (N1 & N2 & N3). apply resolve_name_ext; intros y.
    - now apply assoc_perm.
    - rewrite !find_member_assoc. apply assoc_perm; [easy|]. now apply flat_map_perm.
  Qed.
  Lemma order_enum t : is_enum_type cx t = is_enum_type cx' t.
  Proof. destruct t; try easy. now apply existsb_perm. Qed.
  Lemma order_resolve n x : resolve_type_token cx n x = resolve_type_token cx' n x.
  Proof.
    revert x. induction n as [|n IH]; intros x; cbn [resolve_type_token]; [easy|]. change (cx_config cx') with (cx_config cx).
    change (typedefs cx) with (type_defs ds). change (typedefs cx') with (type_defs ds').
    rewrite (@assoc_perm _ x (type_defs ds) (type_defs ds')) by (apply N || exact PT).
    destruct (remove_typedef (cx_config cx)); [|easy]. destruct (assoc _ x (type_defs ds')) as [[d| | |]|]; try easy.
    now rewrite (same_type IH).
  Qed.
  Lemma order_gen n f : gen_code n cfg ds = GOk f -> exists f', gen_code n cfg ds' = GOk f' /\
    fi_uses f' = fi_uses f /\ Permutation (fi_consts f) (fi_consts f') /\ Permutation (fi_types f) (fi_types f').
  Proof.
    rewrite !gen_code_eq. intros H. apply gbind_ok in H as (cs & HC & H). apply gbind_ok in H as (ts & HT & H). cbv zeta in H. injection H as <-.
    unfold constants_token in HC. destruct (gmap_perm (l := constants (ctx cfg ds)) PC HC) as (cs' & HC' & QC).
    unfold types_token in HT. apply gbind_ok in HT as (l & HT & [= <-]).
    destruct (gmap_perm (l := typedefs (ctx cfg ds)) PT HT) as (l' & HT' & QT).
    unfold constants_token. change (gmap constant_token (constants (ctx cfg ds'))) with (gmap constant_token (const_defs ds')). rewrite HC'.
    unfold types_token. change (typedefs (ctx cfg ds')) with (type_defs ds').
    rewrite (@gmap_ext _ _ (type_token_of (ctx cfg ds') n) (type_token_of (ctx cfg ds) n)).
    2:{ intros p _. symmetry. apply same_token; [easy|apply order_resolve|apply order_name|apply order_enum]. }
    rewrite HT'. eexists. split; [reflexivity|]. cbn. split; [easy|]. split; [easy|]. now apply concat_perm.
  Qed.
End Order.

Lemma order_irrelevant cfg ds ds' f : Permutation ds ds' -> no_redefinition ds ->
  greturns (fun n => gen_code n cfg ds) (GOk f) -> exists f', greturns (fun n => gen_code n cfg ds') (GOk f') /\
    fi_uses f' = fi_uses f /\ Permutation (fi_consts f) (fi_consts f') /\ Permutation (fi_types f) (fi_types f').
Proof.
  intros P N [NF [k H]]. destruct (order_gen P N (H k (le_n k))) as (f' & H' & Q). exists f'. split; [|exact Q]. split; [easy|].
  exists k. intros n L. rewrite <- H'. apply (@gen_mono cfg ds' k n L). rewrite H'. discriminate.
Qed.
