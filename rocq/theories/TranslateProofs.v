(** C115: exactly which interface files are translated. *)
From Verif Require Import Base RustTypes Nom NomFacts Keyword Ast ParserModel SpecGrammar SpecParse ParseSound ParserLemmas ConstProofs
  CaseModel SpecCase CaseProofs RustAst GenModel SpecGen SpecItems GenFacts GenTotal GenPanic GenLemmas WireBase SpecTranslate.
Set Implicit Arguments.
Unset Strict Implicit.
Local Open Scope string_scope.
Local Open Scope list_scope.

(** ** Sufficiently large bounds *)
Definition runs {A} (f : nat -> gres A) : Prop := exists a N, forall n, (N <= n)%nat -> f n = GOk a.

Lemma runs_const {A} (r : gres A) a : r = GOk a -> runs (fun _ => r).
Proof. intros ->. exists a, O. easy. Qed.
Lemma runs_bind {A B} (f : nat -> gres A) (g : nat -> A -> gres B) a N :
  (forall n, (N <= n)%nat -> f n = GOk a) -> runs (fun n => g n a) -> runs (fun n => gbind (f n) (g n)).
Proof.
  intros H (b & M & K). exists b, (max N M). intros n L. rewrite H by lia. cbn. apply K. lia.
Qed.
Lemma runs_gmap {A B} (f : nat -> A -> gres B) l : (forall a, In a l -> runs (fun n => f n a)) ->
  runs (fun n => gmap (f n) l).
Proof.
  induction l as [|a l IH]; intros H; [now exists [], O|].
  destruct (H a (or_introl eq_refl)) as (b & N & K). destruct IH as (bs & M & K'); [intros x Hx; apply H; now right|].
  exists (b :: bs), (max N M). intros n L. cbn. rewrite K by lia. cbn. rewrite K' by lia. easy.
Qed.
Lemma runs_ext {A} (f g : nat -> gres A) : (forall n, f n = g n) -> runs f -> runs g.
Proof. intros E (a & N & H). exists a, N. intros n L. rewrite <- E. now apply H. Qed.

Lemma camel_needs x y : upper_camel_case_ident x = GOk y -> camelable x.
Proof.
  unfold upper_camel_case_ident, ident_new. destruct (ident_text _) eqn:e; [|discriminate]. intros _.
  apply ident_text_spec in e as [e _]. unfold camelable. rewrite <- (camel_letters (chars x)).
  rewrite no_us_letters by apply camel_no_us. pose proof (camel_no_us (chars x)) as U.
  destruct (upper_camel_case (chars x)) as [|c u]; [easy|]. cbn in *. rewrite alpha_lower.
  unfold name_start in e. rewrite orb_true_iff in e. destruct e as [e|e]; [easy|].
  exfalso. apply Ascii.eqb_eq in e. subst c. discriminate U.
Qed.

(** ** Values *)
Lemma constant_size c : good_constant c ->
  (exists z, constant_value KUsize c = GOk z) <-> size_ok (VConst c).
Proof.
  intros g. cbn. destruct (stands_total g) as [w S]. split.
  - intros [z E]. exists w. split; [easy|]. assert (D : fits KUsize w \/ ~ fits KUsize w) by (cbn; lia).
    destruct D as [D|D]; [cbn in D; lia|]. rewrite (constant_overflows g S D) in E. discriminate.
  - intros (z & S' & H). exists z. apply constant_fits; try easy. cbn. lia.
Qed.
Lemma size_dec v : good_value v -> size_ok v \/ ~ size_ok v.
Proof.
  destruct v as [c|x]; cbn; [|now left]. intros g. destruct (stands_total g) as [w S].
  assert (D : 0 <= w < 2 ^ 64 \/ ~ 0 <= w < 2 ^ 64) by lia. destruct D as [D|D]; [left; eauto|right].
  intros (z & S' & H). now rewrite (stands_fun S' S) in H.
Qed.
Lemma size_token v : good_value v -> size_ok v -> exists t, convert_value_token KUsize false v = GOk t.
Proof.
  intros g H. destruct v as [c|x]; cbn [convert_value_token].
  - apply (constant_size g) in H as [z E]. rewrite E. cbn. eauto.
  - rewrite plain_ident by easy. cbn. eauto.
Qed.
Lemma size_token_err v : good_value v -> ~ size_ok v -> exists e, convert_value_token KUsize false v = GErr e.
Proof.
  intros g H. destruct v as [c|x]; [|exfalso; now apply H]. cbn [convert_value_token].
  destruct (constant_result KUsize c) as [E|E]; [now apply (constant_size g) in E|]. rewrite E. cbn. eauto.
Qed.
Lemma sizes_good d v : good_decl d -> size_of d = Some v -> good_value v.
Proof. destruct d; cbn; try discriminate; intros g [= <-]; tauto. Qed.
Lemma sizes_dec d : good_decl d -> sizes_ok d \/ ~ sizes_ok d.
Proof.
  intros g. unfold sizes_ok. destruct (size_of d) eqn:e; [|now left]. apply size_dec. exact (sizes_good g e).
Qed.

Section Translate.
  Variables (cfg : config) (ds : list definition).
  Let cx := ctx cfg ds.
  Hypothesis G : good_spec ds.

  Lemma stands_first x d : stands_in cfg ds x d <->
    remove_typedef cfg = true /\ assoc String.eqb x (typedefs cx) = Some (TdDecl d).
  Proof. unfold stands_in. cbn [typedefs cx ctx]. now rewrite assoc_first. Qed.
  Lemma stands_good x d : stands_in cfg ds x d -> good_decl d /\ d <> DVoid.
  Proof.
    intros [_ H]. apply first_in in H. destruct (good_types G H) as [g e]. split; [exact g|].
    intros ->. discriminate.
  Qed.

  (** *** A declaration, given what its type does *)
  Lemma decl_ok (rt : string -> gres (rty * opaque_type)) d : good_decl d -> sizes_ok d ->
    (forall t, mentions d = Some t -> exists r, convert_primitive_token rt t = GOk r) ->
    exists o, convert_type_token rt d = GOk o /\ (d <> DVoid -> o <> None).
  Proof.
    intros g s H. destruct d; cbn [convert_type_token mentions] in *;
      try (destruct (H _ eq_refl) as [[ty op] E]; rewrite E; cbn [gbind]);
      try (eexists; split; [reflexivity|easy]).
    - cbn in s, g. destruct (size_token (v := v)) as [u U]; try tauto. rewrite U. cbn. eexists. split; [reflexivity|easy].
    - cbn in s, g. destruct (size_token (v := v)) as [u U]; try tauto. rewrite U. cbn. eexists. split; [reflexivity|easy].
  Qed.
  Lemma decl_size_err rt d : good_decl d -> ~ sizes_ok d ->
    (forall t, mentions d = Some t -> exists r, convert_primitive_token rt t = GOk r) ->
    exists e, convert_type_token rt d = GErr e.
  Proof.
    intros g s H. destruct d; cbn [convert_type_token mentions] in *; try (exfalso; now apply s).
    - destruct (H _ eq_refl) as [[ty op] E]. rewrite E. cbn [gbind].
      cbn in s, g. destruct (size_token_err (v := v)) as [u U]; try tauto. rewrite U. cbn. eauto.
    - cbn in s, g. destruct (size_token_err (v := v)) as [u U]; try tauto. rewrite U. cbn. eauto.
  Qed.
  Lemma decl_type_err rt d t e : mentions d = Some t -> convert_primitive_token rt t = GErr e ->
    convert_type_token rt d = GErr e.
  Proof. destruct d; cbn; try discriminate; intros [= <-] E; rewrite E; easy. Qed.
  Lemma decl_inv rt d o : good_decl d -> convert_type_token rt d = GOk o -> sizes_ok d /\
    forall t, mentions d = Some t -> exists r, convert_primitive_token rt t = GOk r.
  Proof.
    intros g H.
    assert (V : forall v t, good_value v -> convert_value_token KUsize false v = GOk t -> size_ok v).
    { intros v t gv E. destruct (size_dec gv) as [s|s]; [easy|]. destruct (size_token_err gv s) as [e E']. congruence. }
    destruct d; cbn [convert_type_token mentions sizes_ok size_of good_decl] in *;
      try (split; [easy|discriminate]);
      try (apply gbind_ok in H as ([ty op] & E & H)); try (split; [easy|intros t' [= <-]; eauto]).
    - apply gbind_ok in H as (u & U & _). split; [|intros t' [= <-]; eauto]. unfold sizes_ok. cbn. eapply V; [|exact U]; tauto.
    - apply gbind_ok in H as (u & U & _). split; [|discriminate]. unfold sizes_ok. cbn. eapply V; [|exact U]; tauto.
  Qed.
  Lemma decl_err_inv rt d e : good_decl d -> convert_type_token rt d = GErr e ->
    (exists t e', mentions d = Some t /\ convert_primitive_token rt t = GErr e') \/
    (~ sizes_ok d /\ forall t, mentions d = Some t -> exists r, convert_primitive_token rt t = GOk r).
  Proof.
    intros g H. destruct (mentions d) as [t|] eqn:m.
    - destruct (convert_primitive_token rt t) as [r|e'| |] eqn:E; [|left; eauto| |];
        [|exfalso; destruct d; try discriminate; cbn in m, H; injection m as <-; rewrite E in H; discriminate..].
      right. split; [|intros t' [= <-]; eauto]. intros s. destruct (@decl_ok rt d) as (o & K & _); try easy; [|congruence].
      intros t' Et. rewrite m in Et. injection Et as <-. eauto.
    - right. split; [|discriminate]. intros s. destruct (@decl_ok rt d) as (o & K & _); try easy; [|congruence].
      intros t' Et. congruence.
  Qed.

  Lemma resolve_S n x : resolve_type_token cx (S n) x =
    if remove_typedef cfg then
      match assoc String.eqb x (typedefs cx) with
      | Some (TdDecl d) => gbind (convert_type_token (resolve_type_token cx n) d) required
      | _ => gbind (upper_camel_case_ident x) (fun name => GOk (YName name, OpNone))
      end
    else gbind (upper_camel_case_ident x) (fun name => GOk (YName name, OpNone)).
  Proof. reflexivity. Qed.

  Lemma resolve_cases n x :
    (exists d, stands_in cfg ds x d /\
       resolve_type_token cx (S n) x = gbind (convert_type_token (resolve_type_token cx n) d) required) \/
    ((forall d, ~ stands_in cfg ds x d) /\
       resolve_type_token cx (S n) x = gbind (upper_camel_case_ident x) (fun name => GOk (YName name, OpNone))).
  Proof.
    rewrite resolve_S. destruct (remove_typedef cfg) eqn:r.
    - destruct (assoc String.eqb x (typedefs cx)) as [[d| | |]|] eqn:a;
        [left; exists d; split; [now apply stands_first|easy]|right..];
        (split; [|easy]); intros d' H; apply stands_first in H as [_ H]; congruence.
    - right. split; [|easy]. intros d [H _]. congruence.
  Qed.
  Lemma stands_fun x d d' : stands_in cfg ds x d -> stands_in cfg ds x d' -> d = d'.
  Proof. rewrite !stands_first. intros [_ a] [_ b]. congruence. Qed.

  (** *** Types *)
  Lemma typed_runs t : typed cfg ds t -> good_type t -> t <> TsVoid ->
    exists r N, forall n, (N <= n)%nat -> convert_primitive_token (resolve_type_token cx n) t = GOk r.
  Proof.
    induction 1 as [t h|x H c|x d H m s|x d t H m T IH s]; intros g nv.
    - destruct h; (eexists; exists O; intros; reflexivity).
    - exists (YName (camel x), OpNone), 1%nat. intros [|n] L; [lia|]. cbn [convert_primitive_token].
      destruct (resolve_cases n x) as [(d & D & _)|[_ E]]; [exfalso; now apply (H d)|]. rewrite E, camel_ident by easy. easy.
    - destruct (stands_good H) as [gd vd].
      assert (K : forall rt rt', convert_type_token rt d = convert_type_token rt' d) by (destruct d; try discriminate; reflexivity).
      destruct (@decl_ok (resolve_type_token cx 0) d gd s) as (o & E & no); [congruence|].
      destruct o as [r|]; [|now apply no in vd]. exists r, 1%nat. intros [|n] L; [lia|]. cbn [convert_primitive_token].
      destruct (resolve_cases n x) as [(d' & D & E')|[N _]]; [|exfalso; now apply (N d)].
      rewrite (stands_fun D H) in E'. rewrite E', (K _ (resolve_type_token cx 0)), E. easy.
    - destruct (stands_good H) as [gd vd]. destruct (good_mentions gd m) as [gt vt].
      destruct (IH gt vt) as (r & N & R).
      assert (K : forall n, (N <= n)%nat -> convert_type_token (resolve_type_token cx n) d = convert_type_token (resolve_type_token cx N) d).
      { intros n L. destruct d; try discriminate; cbn in m |- *; injection m as <-; rewrite (R n L), (R N) by lia; easy. }
      destruct (@decl_ok (resolve_type_token cx N) d gd s) as (o & E & no).
      { intros t' Et. rewrite m in Et. injection Et as <-. exists r. apply R. lia. }
      destruct o as [q|]; [|now apply no in vd]. exists q, (S N). intros [|n] L; [lia|]. cbn [convert_primitive_token].
      destruct (resolve_cases n x) as [(d' & D & E')|[M _]]; [|exfalso; now apply (M d)].
      rewrite (stands_fun D H) in E'. rewrite E', K, E by lia. easy.
  Qed.
  Lemma expressible_runs d : expressible cfg ds d -> good_decl d ->
    exists o N, (forall n, (N <= n)%nat -> convert_type_token (resolve_type_token cx n) d = GOk o) /\
      (d <> DVoid -> o <> None).
  Proof.
    intros [s T] g.
    assert (R : exists N, forall n, (N <= n)%nat ->
      convert_type_token (resolve_type_token cx n) d = convert_type_token (resolve_type_token cx N) d /\
      forall t, mentions d = Some t -> exists r, convert_primitive_token (resolve_type_token cx n) t = GOk r).
    { destruct (mentions d) as [t|] eqn:m.
      - destruct (good_mentions g m) as [gt vt]. destruct (typed_runs (T t eq_refl) gt vt) as (r & N & R).
        exists N. intros n L. split.
        + destruct d; try discriminate; cbn in m |- *; injection m as <-; rewrite (R n L), (R N) by lia; easy.
        + intros t' [= <-]. exists r. now apply R.
      - exists O. intros n _. split; [|discriminate]. destruct d; try discriminate; reflexivity. }
    destruct R as [N R]. destruct (@decl_ok (resolve_type_token cx N) d g s) as (o & E & no).
    { apply R. lia. }
    exists o, N. split; [|easy]. intros n L. destruct (R n L) as [E' _]. congruence.
  Qed.
  Lemma refused_runs t : refused cfg ds t -> good_type t -> t <> TsVoid ->
    exists e N, forall n, (N <= n)%nat -> convert_primitive_token (resolve_type_token cx n) t = GErr e.
  Proof.
    induction 1 as [t h|x d H m s|x d t H m T IH|x d t H m T s]; intros g nv.
    - destruct h; (eexists; exists O; intros; reflexivity).
    - destruct (stands_good H) as [gd vd].
      assert (K : forall rt rt', convert_type_token rt d = convert_type_token rt' d) by (destruct d; try discriminate; reflexivity).
      destruct (@decl_size_err (resolve_type_token cx 0) d gd s) as (e & E); [congruence|].
      exists e, 1%nat. intros [|n] L; [lia|]. cbn [convert_primitive_token].
      destruct (resolve_cases n x) as [(d' & D & E')|[N _]]; [|exfalso; now apply (N d)].
      rewrite (stands_fun D H) in E'. rewrite E', (K _ (resolve_type_token cx 0)), E. easy.
    - destruct (stands_good H) as [gd vd]. destruct (good_mentions gd m) as [gt vt].
      destruct (IH gt vt) as (e & N & R). exists e, (S N). intros [|n] L; [lia|]. cbn [convert_primitive_token].
      destruct (resolve_cases n x) as [(d' & D & E')|[M _]]; [|exfalso; now apply (M d)].
      rewrite (stands_fun D H) in E'. rewrite E', (decl_type_err m (R n ltac:(lia))). easy.
    - destruct (stands_good H) as [gd vd]. destruct (good_mentions gd m) as [gt vt].
      destruct (typed_runs T gt vt) as (r & N & R).
      assert (K : forall n, (N <= n)%nat -> convert_type_token (resolve_type_token cx n) d = convert_type_token (resolve_type_token cx N) d).
      { intros n L. destruct d; try discriminate; cbn in m |- *; injection m as <-; rewrite (R n L), (R N) by lia; easy. }
      destruct (@decl_size_err (resolve_type_token cx N) d gd s) as (e & E).
      { intros t' Et. rewrite m in Et. injection Et as <-. exists r. apply R. lia. }
      exists e, (S N). intros [|n] L; [lia|]. cbn [convert_primitive_token].
      destruct (resolve_cases n x) as [(d' & D & E')|[M _]]; [|exfalso; now apply (M d)].
      rewrite (stands_fun D H) in E'. rewrite E', K, E by lia. easy.
  Qed.

  Lemma typed_inv n : forall t r, good_type t -> t <> TsVoid ->
    convert_primitive_token (resolve_type_token cx n) t = GOk r -> typed cfg ds t.
  Proof.
    induction n as [|n IH]; intros t r g nv H.
    - destruct t; try discriminate; constructor; constructor.
    - destruct t; try discriminate; try (constructor; constructor). cbn [convert_primitive_token] in H.
      destruct (resolve_cases n x) as [(d & D & E)|[M E]]; rewrite E in H.
      + apply gbind_ok in H as (o & H & _). destruct (stands_good D) as [gd vd].
        destruct (decl_inv gd H) as [s T]. destruct (mentions d) as [t|] eqn:m.
        * destruct (T t eq_refl) as [q Q]. destruct (good_mentions gd m) as [gt vt].
          apply ty_other with d t; try easy. now apply (IH t q).
        * now apply ty_plain with d.
      + apply gbind_ok in H as (y & H & _). apply ty_name; [easy|]. now apply camel_needs with y.
  Qed.
  Lemma expressible_inv n d o : good_decl d -> convert_type_token (resolve_type_token cx n) d = GOk o ->
    expressible cfg ds d.
  Proof.
    intros g H. destruct (decl_inv g H) as [s T]. split; [easy|]. intros t m.
    destruct (T t m) as [q Q]. destruct (good_mentions g m) as [gt vt]. exact (typed_inv gt vt Q).
  Qed.
  Lemma refused_inv n : forall t e, good_type t -> t <> TsVoid ->
    convert_primitive_token (resolve_type_token cx n) t = GErr e -> refused cfg ds t.
  Proof.
    induction n as [|n IH]; intros t e g nv H.
    - destruct t; try discriminate; constructor; constructor.
    - destruct t; try discriminate; try (constructor; constructor). cbn [convert_primitive_token] in H.
      destruct (resolve_cases n x) as [(d & D & E)|[M E]]; rewrite E in H.
      + destruct (stands_good D) as [gd vd].
        destruct (convert_type_token (resolve_type_token cx n) d) as [o|e'| |] eqn:C; try discriminate.
        * cbn in H. destruct o; [discriminate|]. exfalso. destruct (decl_inv gd C) as [s T].
          destruct (@decl_ok (resolve_type_token cx n) d gd s T) as (o & C' & no). apply no in vd. congruence.
        * destruct (decl_err_inv gd C) as [(t & e2 & m & P)|[s T]].
          -- destruct (good_mentions gd m) as [gt vt]. apply rf_other with d t; try easy. now apply (IH t e2).
          -- destruct (mentions d) as [t|] eqn:m; [|now apply rf_plain with d].
             destruct (good_mentions gd m) as [gt vt]. destruct (T t eq_refl) as [q Q].
             apply rf_size with d t; try easy. exact (typed_inv gt vt Q).
      + exfalso. cbn in H. unfold upper_camel_case_ident, ident_new in H. destruct (ident_text _); discriminate.
  Qed.
End Translate.
