(** Basic facts about the generator model: bounds, names, values. *)
From Verif Require Import Base RustTypes Nom NomFacts Keyword Ast ParserModel SpecGrammar SpecParse
  ConstProofs CaseModel RustAst GenModel SpecGen.
Set Implicit Arguments.
Unset Strict Implicit.
Local Open Scope list_scope.

(** ** Results *)
Lemma gbind_ok {A B} (r : gres A) (f : A -> gres B) b :
  gbind r f = GOk b -> exists a, r = GOk a /\ f a = GOk b.
Proof. destruct r; cbn; try discriminate. eauto. Qed.

Lemma gmap_ok {A B} (f : A -> gres B) l bs :
  gmap f l = GOk bs -> Forall2 (fun a b => f a = GOk b) l bs.
Proof.
  revert bs. induction l as [|a l IH]; cbn; intros bs H; [injection H as <-; constructor|].
  apply gbind_ok in H as (b & H1 & H). apply gbind_ok in H as (bs' & H2 & H). injection H as <-.
  constructor; auto.
Qed.
Lemma gmap_intro {A B} (f : A -> gres B) l bs :
  Forall2 (fun a b => f a = GOk b) l bs -> gmap f l = GOk bs.
Proof. induction 1 as [|a b l bs H F IH]; cbn; [easy|]. now rewrite H, IH. Qed.
Lemma gmap_map {A B} (f : A -> gres B) g l : (forall a, In a l -> f a = GOk (g a)) -> gmap f l = GOk (map g l).
Proof.
  induction l as [|a l IH]; intros H; [easy|]. cbn. rewrite H by now left.
  cbn. rewrite IH; [easy|]. intros; apply H. now right.
Qed.
Lemma gmap_ext {A B} (f g : A -> gres B) l : (forall a, In a l -> f a = g a) -> gmap f l = gmap g l.
Proof.
  induction l as [|a l IH]; intros H; [easy|]. cbn. rewrite H by now left.
  now rewrite IH by (intros; apply H; now right).
Qed.

(** ** Bounds: a result other than GFuel stays when the bound grows *)
Definition mono {A} (f : nat -> gres A) : Prop :=
  forall n m, (n <= m)%nat -> f n <> GFuel -> f m = f n.

Lemma mono_const {A} (r : gres A) : mono (fun _ => r).
Proof. now intros n m _ _. Qed.
Lemma mono_bind {A B} (f : nat -> gres A) (g : nat -> A -> gres B) :
  mono f -> (forall a, mono (fun n => g n a)) -> mono (fun n => gbind (f n) (g n)).
Proof.
  intros Hf Hg n m L H. destruct (f n) as [a| | |] eqn:e.
  - rewrite (Hf n m L) by congruence. rewrite e in *. cbn in *. now apply Hg.
  - rewrite (Hf n m L) by congruence. now rewrite e.
  - rewrite (Hf n m L) by congruence. now rewrite e.
  - cbn in H. congruence.
Qed.
Lemma mono_gmap {A B} (f : nat -> A -> gres B) l :
  (forall a, In a l -> mono (fun n => f n a)) -> mono (fun n => gmap (f n) l).
Proof.
  induction l as [|a l IH]; intros H; [now intros n m _ _|]. cbn [gmap].
  apply mono_bind; [apply H; now left|]. intros b.
  apply mono_bind; [apply IH; intros; apply H; now right|]. intros. apply mono_const.
Qed.
Lemma mono_else {A} (f g : nat -> gres A) : mono f -> mono g ->
  mono (fun n => match f n with GErr _ => g n | r => r end).
Proof.
  intros Hf Hg n m L H. destruct (f n) as [a|e0| |] eqn:e; try congruence;
    rewrite (Hf n m L) by congruence; rewrite e; auto.
Qed.
Lemma greturns_mono {A} (f : nat -> gres A) n r : mono f -> f n = r -> r <> GFuel -> greturns f r.
Proof. intros M e ne. split; [easy|]. exists n. intros m L. rewrite (M n m L); congruence. Qed.
Lemma greturns_run {A} (f : nat -> gres A) r : greturns f r -> exists n, f n = r /\ r <> GFuel.
Proof. intros [ne [N H]]. exists N. auto. Qed.
Lemma greturns_fun {A} (f : nat -> gres A) r s : greturns f r -> greturns f s -> r = s.
Proof.
  intros [_ [N H]] [_ [M K]]. rewrite <- (H (Nat.max N M)) by lia. apply K. lia.
Qed.
Lemma greturns_const {A} (r : gres A) : r <> GFuel -> greturns (fun _ => r) r.
Proof. intros. split; [easy|]. now exists 0%nat. Qed.
Lemma greturns_bind {A B} (f : nat -> gres A) (g : nat -> A -> gres B) a r :
  greturns f (GOk a) -> greturns (fun n => g n a) r -> greturns (fun n => gbind (f n) (g n)) r.
Proof.
  intros [_ [N H]] [ne [M K]]. split; [easy|]. exists (Nat.max N M). intros n L.
  rewrite H by lia. cbn. apply K. lia.
Qed.
Lemma greturns_bind_err {A B} (f : nat -> gres A) (g : nat -> A -> gres B) e :
  greturns f (GErr e) -> greturns (fun n => gbind (f n) (g n)) (GErr e).
Proof. intros [_ [N H]]. split; [easy|]. exists N. intros n L. now rewrite H. Qed.
Lemma greturns_gmap {A B} (f : nat -> A -> gres B) l bs :
  Forall2 (fun a b => greturns (fun n => f n a) (GOk b)) l bs ->
  greturns (fun n => gmap (f n) l) (GOk bs).
Proof.
  induction 1 as [|a b l bs H F IH]; [now apply greturns_const|].
  cbn [gmap]. eapply greturns_bind; [exact H|].
  eapply greturns_bind; [exact IH|]. now apply greturns_const.
Qed.
Lemma greturns_ext {A} (f g : nat -> gres A) r : (forall n, f n = g n) -> greturns f r -> greturns g r.
Proof. intros E [ne [N H]]. split; [easy|]. exists N. intros. rewrite <- E. auto. Qed.

(** ** First entries *)
Lemma assoc_first {A} x (l : list (string * A)) v : assoc String.eqb x l = Some v <-> first x l v.
Proof.
  split.
  - induction l as [|[y w] l IH]; cbn; [discriminate|]. destruct (String.eqb_spec x y) as [->|ne].
    + intros [= ->]. exists [], l. easy.
    + intros H. destruct (IH H) as (a & b & -> & N). exists ((y, w) :: a), b.
      split; [easy|]. cbn. intros [e|i]; [congruence|easy].
  - intros (a & b & -> & N). induction a as [|[y w] a IH]; cbn.
    + now rewrite String.eqb_refl.
    + destruct (String.eqb_spec x y) as [->|ne]; [exfalso; apply N; now left|].
      apply IH. intros i. apply N. now right.
Qed.
Lemma assoc_none {A} x (l : list (string * A)) : assoc String.eqb x l = None <-> ~ In x (map fst l).
Proof.
  induction l as [|[y w] l IH]; cbn; [tauto|]. destruct (String.eqb_spec x y) as [->|ne].
  - split; [discriminate|]. intros H. exfalso. apply H. now left.
  - rewrite IH. split; [|tauto]. intros H [e|i]; [congruence|easy].
Qed.
Lemma assoc_app {A} x (a b : list (string * A)) :
  assoc String.eqb x (a ++ b) = match assoc String.eqb x a with Some v => Some v | None => assoc String.eqb x b end.
Proof. induction a as [|[y w] a IH]; cbn; [easy|]. now destruct (String.eqb x y). Qed.
Lemma first_in {A} x (l : list (string * A)) v : first x l v -> In (x, v) l.
Proof. intros (a & b & -> & _). apply in_or_app. right. now left. Qed.
Lemma first_fun {A} x (l : list (string * A)) v w : first x l v -> first x l w -> v = w.
Proof. rewrite <- !assoc_first. congruence. Qed.
Lemma in_first {A} x (l : list (string * A)) : In x (map fst l) -> exists v, first x l v.
Proof.
  intros H. destruct (assoc String.eqb x l) as [v|] eqn:e.
  - exists v. now apply assoc_first.
  - apply assoc_none in e. easy.
Qed.

(** ** The context *)
Lemma setup_spec ds : setup_context ds = (const_defs ds, type_defs ds).
Proof.
  induction ds as [|d ds IH]; [easy|]. cbn [setup_context]. rewrite IH.
  destruct d as [t|a| |p]; try easy.
  destruct t as [d| | |]; try easy.
  cbn [type_defs flat_map const_defs const_of type_of typedef_name app].
  replace (decl_name d) with (declared d) by now destruct d.
  now destruct (declared d).
Qed.

Lemma find_member_assoc x l :
  find_member x l = assoc String.eqb x (flat_map (fun p : string * typedef => members (snd p)) l).
Proof.
  induction l as [|[y t] l IH]; [easy|]. cbn [find_member flat_map snd]. rewrite assoc_app.
  destruct t as [d|z a|z a|z a]; cbn [members assoc]; try exact IH.
  assert (H : assoc String.eqb x (map (fun a => (as_name a, as_value a)) a) =
              option_map as_value (find (fun a => String.eqb (as_name a) x) a)).
  { clear. induction a as [|b a IH]; [easy|]. cbn. rewrite String.eqb_sym.
    now destruct (String.eqb (as_name b) x). }
  rewrite H. destruct (find _ a); cbn; [easy|exact IH].
Qed.

(** the context of a definition list *)
Definition ctx (cfg : config) (ds : list definition) : context := Context cfg (const_defs ds) (type_defs ds).

Lemma gen_code_eq n cfg ds : gen_code n cfg ds =
  gbind (constants_token (ctx cfg ds)) (fun consts =>
  gbind (types_token (ctx cfg ds) n) (fun types =>
  let tuple := enum_impl_indexer cfg || union_impl_indexer cfg || union_impl_union cfg in
  let indexer := enum_impl_indexer cfg || union_impl_indexer cfg in
  GOk (File ((if tuple then [UseSerializeTuple] else []) ++
             (if indexer then [UseIndexer] else []) ++
             (if union_impl_union cfg then [UseUnion] else []))
            consts types))).
Proof. unfold gen_code. now rewrite setup_spec. Qed.

(** ** Values *)
Definition good_values (ds : list definition) : Prop :=
  Forall (fun p => good_value (snd p)) (const_defs ds) /\
  Forall (fun p => good_value (snd p)) (member_defs ds).

Lemma good_spec_values ds : good_spec ds -> good_values ds.
Proof.
  unfold good_spec, good_values, const_defs, member_defs, type_defs.
  induction 1 as [|d ds H F [IH1 IH2]]; [split; constructor|].
  split.
  - cbn [flat_map]. apply Forall_app. split; [|easy].
    destruct d; cbn; constructor; [|constructor]. apply H.
  - cbn [flat_map]. rewrite flat_map_app. apply Forall_app. split; [|easy].
    destruct d as [t|a| |p]; cbn [type_of flat_map]; try constructor.
    destruct t as [d|x l|x l|x u]; cbn [typedef_name].
    + destruct (declared d); constructor.
    + cbn. rewrite app_nil_r. destruct H as (_ & _ & H).
      clear -H. induction H as [|a l h F IH]; constructor; [apply h|exact IH].
    + constructor.
    + constructor.
Qed.

Lemma constant_result k c : (exists z, constant_value k c = GOk z) \/ constant_value k c = GErr GParse.
Proof. unfold constant_value. destruct (match c with Decimal _ => _ | _ => _ end); eauto. Qed.

Section Values.
  Variables (cfg : config) (ds : list definition) (k : intkind).
  Let cx := ctx cfg ds.

  Lemma resolve_name_S n x : resolve_name cx (S n) k x =
    match match assoc String.eqb x (const_defs ds) with
          | Some v => resolve_value cx n k v
          | None => GErr (GNotFoundIdentifier x)
          end with
    | GErr _ => match assoc String.eqb x (member_defs ds) with
                | Some v => resolve_value cx n k v
                | None => GErr (GNotFoundIdentifier x)
                end
    | r => r
    end.
  Proof. cbn [resolve_name]. unfold cx at 2. cbn [typedefs ctx]. now rewrite find_member_assoc. Qed.

  Lemma resolve_name_mono1 n : forall x, resolve_name cx n k x <> GFuel ->
    resolve_name cx (S n) k x = resolve_name cx n k x.
  Proof.
    induction n as [|n IH]; intros x H; [now cbn in H|].
    rewrite (resolve_name_S (S n)). rewrite resolve_name_S in H |- *.
    assert (V : forall v, resolve_value cx n k v <> GFuel ->
                resolve_value cx (S n) k v = resolve_value cx n k v).
    { intros [c|y]; [easy|]. apply IH. }
    destruct (assoc String.eqb x (const_defs ds)) as [v|].
    - destruct (resolve_value cx n k v) as [z|e| |] eqn:E; try congruence;
        rewrite V by congruence; rewrite E; try easy.
      destruct (assoc String.eqb x (member_defs ds)); [now apply V|easy].
    - destruct (assoc String.eqb x (member_defs ds)); [now apply V|easy].
  Qed.
  Lemma resolve_name_mono x : mono (fun n => resolve_name cx n k x).
  Proof.
    intros n m L. induction L as [|m L IH]; intros H; [easy|].
    rewrite resolve_name_mono1; rewrite IH; easy.
  Qed.
  Lemma resolve_value_mono v : mono (fun n => resolve_value cx n k v).
  Proof. destruct v; [now intros n m _ _|apply resolve_name_mono]. Qed.

  Lemma resolve_name_result n : forall x, resolve_name cx n k x <> GPanic.
  Proof.
    induction n as [|n IH]; intros x; [easy|]. rewrite resolve_name_S.
    assert (V : forall v, resolve_value cx n k v <> GPanic).
    { intros [c|y]; cbn; [|apply IH]. destruct (constant_result k c) as [[z E]|E]; rewrite E; easy. }
    destruct (assoc String.eqb x (const_defs ds)) as [v|].
    - specialize (V v) as Vv. destruct (resolve_value cx n k v); try easy.
      destruct (assoc String.eqb x (member_defs ds)); [apply V|easy].
    - destruct (assoc String.eqb x (member_defs ds)); [apply V|easy].
  Qed.
  Lemma resolve_value_result n v : resolve_value cx n k v <> GPanic.
  Proof.
    destruct v as [c|x]; cbn; [|apply resolve_name_result].
    destruct (constant_result k c) as [[z E]|E]; rewrite E; easy.
  Qed.

  Hypothesis G : good_values ds.

  Lemma first_good_const x v : first x (const_defs ds) v -> good_value v.
  Proof. intros H. apply first_in in H. destruct G as [F _]. rewrite Forall_forall in F. now apply (F _ H). Qed.
  Lemma first_good_member x v : first x (member_defs ds) v -> good_value v.
  Proof. intros H. apply first_in in H. destruct G as [_ F]. rewrite Forall_forall in F. now apply (F _ H). Qed.

  Lemma value_resolves v z : value_is ds v z -> good_value v -> fits k z ->
    greturns (fun n => resolve_value cx n k v) (GOk z).
  Proof.
    induction 1 as [c z S|x v z F V IH|x v z N F V IH]; intros gv fz.
    - cbn. rewrite (constant_fits gv S fz). now apply greturns_const.
    - destruct (IH (first_good_const F) fz) as [_ [M H]]. split; [easy|]. exists (S M).
      intros [|n] L; [lia|]. cbn [resolve_value]. rewrite resolve_name_S.
      apply assoc_first in F. rewrite F, H by lia. easy.
    - destruct (IH (first_good_member F) fz) as [_ [M H]]. split; [easy|]. exists (S M).
      intros [|n] L; [lia|]. cbn [resolve_value]. rewrite resolve_name_S.
      apply assoc_first in F. apply assoc_none in N. rewrite N, F, H by lia. easy.
  Qed.

  Lemma resolves_value n : one_scope ds -> forall v z, good_value v ->
    resolve_value cx n k v = GOk z -> value_is ds v z /\ fits k z.
  Proof.
    intros sc.
    assert (C : forall c z, good_constant c -> constant_value k c = GOk z -> value_is ds (VConst c) z /\ fits k z).
    { intros c z gc e. destruct (stands_total gc) as [w S].
      assert (D : fits k w \/ ~ fits k w) by (destruct k; cbn; lia).
      destruct D as [D|D].
      - rewrite (constant_fits gc S D) in e. injection e as <-. split; [now constructor|easy].
      - rewrite (constant_overflows gc S D) in e. discriminate. }
    induction n as [|n IH]; intros [c|x] z gv e; [now apply C|discriminate|now apply C|].
    cbn [resolve_value] in e. rewrite resolve_name_S in e.
    destruct (assoc String.eqb x (const_defs ds)) as [v|] eqn:a.
    - assert (N : assoc String.eqb x (member_defs ds) = None).
      { apply assoc_none. apply sc. destruct (assoc_first x (const_defs ds) v) as [F _].
        apply F, first_in in a. change x with (fst (x, v)). now apply in_map. }
      apply assoc_first in a. rewrite N in e.
      destruct (resolve_value cx n k v) as [w| | |] eqn:r; try discriminate. injection e as <-.
      destruct (IH v w (first_good_const a) r) as [V F]. split; [|easy]. now apply vi_const with v.
    - destruct (assoc String.eqb x (member_defs ds)) as [v|] eqn:b; [|discriminate].
      apply assoc_first in b. apply assoc_none in a.
      destruct (IH v z (first_good_member b) e) as [V F]. split; [|easy]. now apply vi_member with v.
  Qed.

  Lemma resolve_missing x : ~ In x (map fst (const_defs ds)) -> ~ In x (map fst (member_defs ds)) ->
    greturns (fun n => resolve_value cx n k (VIdent x)) (GErr (GNotFoundIdentifier x)).
  Proof.
    intros a b. split; [easy|]. exists 1%nat. intros [|n] L; [lia|]. cbn [resolve_value].
    rewrite resolve_name_S. apply assoc_none in a, b. now rewrite a, b.
  Qed.

  Lemma resolve_total (rank : string -> nat) :
    (forall x y, In (x, VIdent y) (const_defs ds) \/ In (x, VIdent y) (member_defs ds) ->
       (rank y < rank x)%nat) ->
    forall n x, (rank x < n)%nat -> resolve_name cx n k x <> GFuel.
  Proof.
    intros R. induction n as [|n IH]; intros x L; [lia|]. rewrite resolve_name_S.
    assert (V : forall v, In (x, v) (const_defs ds) \/ In (x, v) (member_defs ds) ->
                resolve_value cx n k v <> GFuel).
    { intros [c|y] H; cbn.
      - destruct (constant_result k c) as [[z E]|E]; rewrite E; easy.
      - apply IH. specialize (R x y H). lia. }
    assert (B : match assoc String.eqb x (member_defs ds) with
                | Some v => resolve_value cx n k v
                | None => GErr (GNotFoundIdentifier x)
                end <> GFuel).
    { destruct (assoc String.eqb x (member_defs ds)) eqn:b; [|easy].
      apply V. right. now apply first_in, assoc_first. }
    destruct (assoc String.eqb x (const_defs ds)) as [v|] eqn:a; [|exact B].
    apply assoc_first, first_in in a. specialize (V v (or_introl a)).
    now destruct (resolve_value cx n k v).
  Qed.
End Values.

Lemma value_is_fun ds v z w : value_is ds v z -> value_is ds v w -> z = w.
Proof.
  intros H. revert w. induction H as [c z S|x v z F V IH|x v z N F V IH]; intros w K; inversion K; subst.
  - eapply stands_fun; eauto.
  - match goal with A : first x (const_defs ds) ?a |- _ =>
      assert (a = v) by (eapply first_fun; eauto); subst; now apply IH end.
  - exfalso. apply first_in in F. match goal with A : ~ In x _ |- _ => apply A end.
    change x with (fst (x, v)). now apply in_map.
  - exfalso. apply N. match goal with A : first x (const_defs ds) ?a |- _ => apply first_in in A;
      change x with (fst (x, a)); now apply in_map end.
  - match goal with A : first x (member_defs ds) ?a |- _ =>
      assert (a = v) by (eapply first_fun; eauto); subst; now apply IH end.
Qed.
