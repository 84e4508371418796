(** Appending definitions leaves the code of the others as it is. *)
From Verif Require Import Base RustTypes Nom NomFacts Keyword Ast ParserModel SpecGrammar SpecParse
  ConstProofs CaseModel SpecCase CaseProofs RustAst GenModel SpecGen SpecItems GenFacts GenTotal GenLemmas SpecXdl GenSem SpecWire WireBase SpecEmit EmitBase EmitProofs ParserLemmas SpecAppend.
Set Implicit Arguments.
Unset Strict Implicit.
Local Open Scope list_scope.

(** the generator asks for the names in [K] only *)
Section SameOn.
  Variables (cx cx' : context) (n : nat) (K : string -> Prop).
  Hypothesis CFG : cx_config cx = cx_config cx'.
  Hypothesis RT : forall x, K x -> resolve_type_token cx n x = resolve_type_token cx' n x.
  Hypothesis RN : forall k x, K x -> resolve_name cx n k x = resolve_name cx' n k x.
  Hypothesis IE : forall x, K x -> is_enum_type cx (TsIdent x) = is_enum_type cx' (TsIdent x).
  Hypothesis STR : is_enum_type cx (TsIdent "String") = is_enum_type cx' (TsIdent "String").

  Definition kvalue (v : value) : Prop := forall x, v = VIdent x -> K x.
  Definition ktype (t : tyspec) : Prop := forall x, t = TsIdent x -> K x.
  Definition kdecl (d : decl) : Prop := forall x, mentions d = Some (TsIdent x) -> K x.

  Lemma on_value k v : kvalue v -> resolve_value cx n k v = resolve_value cx' n k v.
  Proof. intros H. destruct v; cbn; auto. Qed.
  Lemma on_primitive t : ktype t -> convert_primitive_token (resolve_type_token cx n) t = convert_primitive_token (resolve_type_token cx' n) t.
  Proof. intros H. destruct t; cbn; auto. Qed.
  Lemma on_type d : kdecl d -> convert_type_token (resolve_type_token cx n) d = convert_type_token (resolve_type_token cx' n) d.
  Proof.
    intros H. destruct d; cbn [convert_type_token]; try easy; (rewrite on_primitive; [easy|]); intros y ->; now apply H.
  Qed.
  Lemma on_is_enum t : ktype t -> is_enum_type cx t = is_enum_type cx' t.
  Proof. intros H. destruct t; try easy. apply IE. now apply H. Qed.

  Lemma on_enum x l : (forall a, In a l -> kvalue (as_value a)) -> convert_enum_token cx n x l = convert_enum_token cx' n x l.
  Proof.
    intros H. unfold convert_enum_token.
    rewrite (@gmap_ext _ _ (fun a => z <~ resolve_value cx n KI32 (as_value a);; GOk (z, as_name a))
                           (fun a => z <~ resolve_value cx' n KI32 (as_value a);; GOk (z, as_name a)))
      by (intros; rewrite on_value; auto).
    apply gbind_ext. intros ix _. apply gbind_ext. intros nm _. rewrite (same_enum_values CFG), CFG. reflexivity.
  Qed.
  Lemma on_field x d : kdecl d -> struct_field cx n x d = struct_field cx' n x d.
  Proof.
    intros H. unfold struct_field. destruct (decl_name d); [|easy]. rewrite on_type by easy. rewrite CFG.
    apply gbind_ext. intros o Ho. apply gbind_ext. intros [ty op] Hop. f_equal.
    destruct op; try reflexivity.
    replace (match decl_type d with Some t => is_enum_type cx t | None => false end)
      with (match decl_type d with Some t => is_enum_type cx' t | None => false end); [easy|].
    destruct d; cbn [decl_type]; symmetry.
    - apply on_is_enum; intros y ->; now apply H.
    - apply on_is_enum; intros y ->; now apply H.
    - apply on_is_enum; intros y ->; now apply H.
    - cbn [convert_type_token] in Ho. apply gbind_ok in Ho as (? & _ & [= <-]). discriminate.
    - cbn [convert_type_token] in Ho. injection Ho as <-. discriminate.
    - exact STR.
    - apply on_is_enum; intros y ->; now apply H.
    - reflexivity.
  Qed.
  Lemma on_struct x l : (forall d, In d l -> kdecl d) -> convert_struct_token cx n x l = convert_struct_token cx' n x l.
  Proof. intros H. unfold convert_struct_token. f_equal. apply gmap_ext. intros d I. apply on_field. auto. Qed.

  Lemma on_case v d c : ktype c -> kdecl d -> convert_case_token cx n v d c = convert_case_token cx' n v d c.
  Proof. intros HC HD. unfold convert_case_token. rewrite on_primitive, on_type, CFG by easy. reflexivity. Qed.
  Lemma on_union_values c s l acc : ktype c -> (forall z d v, In (z, d, v) l -> kdecl d) ->
    union_values cx n c s l acc = union_values cx' n c s l acc.
  Proof.
    intros HC. revert s acc. induction l as [|[[e d] v] l IH]; intros s acc H; cbn [union_values]; [easy|].
    rewrite CFG, on_case, on_is_enum by (try easy; eapply H; now left).
    apply gbind_ext. intros ? _. apply gbind_ext. intros ? _. apply gbind_ext. intros ? _. apply gbind_ext. intros z _.
    apply IH. intros z' d' v' I. apply (H z' d' v'). now right.
  Qed.
  Lemma on_bool c b specs acc : ktype c -> (forall vs d, In (CaseSpec vs d) specs -> kdecl d) -> bool_case cx n c b specs acc = bool_case cx' n c b specs acc.
  Proof.
    intros HC H. unfold bool_case. destruct (find _ specs) as [[vs d]|] eqn:e; [|now rewrite CFG].
    apply find_some in e as [e _]. destruct (find _ vs); [|easy]. rewrite on_case; [easy|easy|eauto].
  Qed.
  Lemma on_union_default o acc : (forall d, o = Some d -> kdecl d) -> union_default cx n o acc = union_default cx' n o acc.
  Proof. intros H. unfold union_default. destruct o; [|easy]. rewrite on_type by auto. now rewrite CFG. Qed.
  Lemma on_union x u : (forall v, In v (case_labels (TdUnion x u)) -> kvalue v) -> (forall d, In d (parts (TdUnion x u)) -> kdecl d) ->
    convert_union_token cx n x u = convert_union_token cx' n x u.
  Proof.
    destruct u as [c specs dflt]. intros HV HP. unfold convert_union_token. apply gbind_ext. intros nm _. apply gbind_ext. intros t Ht.
    assert (HC : ktype t).
    { destruct c as [c w| | | | | | |]; try discriminate. injection Ht as <-. intros y ->. apply (HP (DVariable (TsIdent y) w)); [now left|easy]. }
    assert (HS : forall vs d, In (CaseSpec vs d) specs -> kdecl d).
    { intros vs d I. apply HP. right. apply in_or_app. left. now apply (in_map (fun s => match s with CaseSpec _ d => d end) specs (CaseSpec vs d)). }
    assert (HD : forall d, dflt = Some d -> kdecl d).
    { intros d ->. apply HP. right. apply in_or_app. right. now left. }
    match goal with |- gbind ?a _ = gbind ?b _ => assert (H : a = b); [|rewrite H] end.
    { assert (V : gmap (fun s => match s with CaseSpec vs d => gmap (fun v => z <~ resolve_value cx n KU32 v;; GOk (z, d, v)) vs end) specs =
                  gmap (fun s => match s with CaseSpec vs d => gmap (fun v => z <~ resolve_value cx' n KU32 v;; GOk (z, d, v)) vs end) specs).
      { apply gmap_ext. intros [vs d] I. apply gmap_ext. intros v Iv. rewrite on_value; [easy|]. apply HV. cbn. apply in_flat_map. exists (CaseSpec vs d). auto. }
      assert (L : forall vals, gmap (fun s => match s with CaseSpec vs d => gmap (fun v => z <~ resolve_value cx' n KU32 v;; GOk (z, d, v)) vs end) specs = GOk vals ->
                  forall z d v, In (z, d, v) (sort_by (fun p => fst (fst p)) (concat vals)) -> kdecl d).
      { intros vals G z d v I. apply (Permutation.Permutation_in _ (sort_by_perm _ _)) in I. apply in_concat in I as (l & Il & I). apply gmap_ok in G.
        destruct (Forall2_in_r G Il) as ([vs d'] & Is & Gl). apply gmap_ok in Gl. destruct (Forall2_in_r Gl I) as (v' & _ & Gv).
        apply gbind_ok in Gv as (? & _ & [= _ <- _]). eauto. }
      destruct t; try easy.
      - rewrite V. apply gbind_ext. intros vals G. apply on_union_values; [easy|]. exact (L vals G).
      - rewrite on_bool by easy. apply gbind_ext. intros p _. rewrite on_bool by easy. easy.
      - rewrite V. apply gbind_ext. intros vals G. apply on_union_values; [easy|]. exact (L vals G). }
    apply gbind_ext. intros p _. rewrite on_union_default by easy. apply gbind_ext. intros q _. now rewrite CFG.
  Qed.
  Lemma on_token x t : (forall a, In a (members t) -> kvalue (snd a)) -> (forall v, In v (case_labels t) -> kvalue v) -> (forall d, In d (parts t) -> kdecl d) ->
    type_token_of cx n (x, t) = type_token_of cx' n (x, t).
  Proof.
    intros HM HV HP. destruct t as [d|y l|y l|y u]; cbn [type_token_of].
    - rewrite CFG. destruct (remove_typedef _); [easy|]. rewrite on_type; [easy|]. apply HP. now left.
    - rewrite on_enum; [easy|]. intros a I. apply (HM (as_name a, as_value a)). now apply (in_map (fun a => (as_name a, as_value a))).
    - now rewrite on_struct.
    - rewrite on_union; [easy| |].
      + destruct u. exact HV.
      + destruct u. exact HP.
  Qed.
End SameOn.

Section Append.
  Variables (cfg : config) (ds more : list definition).
  Hypothesis U : unknown_names ds more.
  Hypothesis S : ~ In "String"%string (map fst (type_defs more)).
  Let cx := ctx cfg ds.
  Let cx' := ctx cfg (ds ++ more).
  Let K (x : string) : Prop := defines ds x \/ uses ds x.

  Lemma k_new x : K x -> ~ defines more x.
  Proof. intros [H|H] D; apply U in D; tauto. Qed.
  Lemma assoc_none_in {A} x (l : list (string * A)) : ~ In x (map fst l) -> assoc String.eqb x l = None.
  Proof. apply assoc_none. Qed.
  Lemma app_const x : K x -> assoc String.eqb x (constants cx) = assoc String.eqb x (constants cx').
  Proof.
    intros H. unfold cx, cx'. cbn [constants ctx]. unfold const_defs at 2. rewrite flat_map_app, assoc_app. fold (const_defs ds) (const_defs more).
    destruct (assoc _ x (const_defs ds)); [easy|]. symmetry. apply assoc_none_in. intros I. apply (k_new H). now left.
  Qed.
  Lemma type_defs_app : type_defs (ds ++ more) = type_defs ds ++ type_defs more.
  Proof. apply flat_map_app. Qed.
  Lemma app_type x : K x -> assoc String.eqb x (typedefs cx) = assoc String.eqb x (typedefs cx').
  Proof.
    intros H. unfold cx, cx'. cbn [typedefs ctx]. rewrite type_defs_app, assoc_app.
    destruct (assoc _ x (type_defs ds)); [easy|]. symmetry. apply assoc_none_in. intros I. apply (k_new H). right. now right.
  Qed.
  Lemma app_member x : K x -> find_member x (typedefs cx) = find_member x (typedefs cx').
  Proof.
    intros H. rewrite !find_member_assoc. unfold cx, cx'. cbn [typedefs ctx]. rewrite type_defs_app, flat_map_app, assoc_app.
    fold (member_defs ds) (member_defs more).
    destruct (assoc _ x (member_defs ds)); [easy|]. symmetry. apply assoc_none_in. intros I. apply (k_new H). right. now left.
  Qed.
  Lemma assoc_in {A} x (l : list (string * A)) a : assoc String.eqb x l = Some a -> In (x, a) l.
  Proof. intros H. apply assoc_first in H. exact (first_in H). Qed.
  Lemma app_name n k x : K x -> resolve_name cx n k x = resolve_name cx' n k x.
  Proof.
    revert x. induction n as [|n IH]; intros x H; cbn [resolve_name]; [easy|].
    rewrite <- (app_const H), <- (app_member H).
    assert (C : forall y, assoc String.eqb x (constants cx) = Some (VIdent y) -> K y).
    { intros y A. right. left. exists x. exact (assoc_in A). }
    assert (M : forall y, find_member x (typedefs cx) = Some (VIdent y) -> K y).
    { intros y A. right. right. left. exists x. rewrite find_member_assoc in A. exact (assoc_in A). }
    destruct (assoc _ x (constants cx)) as [[c|i]|]; [| |];
      destruct (find_member x (typedefs cx)) as [[c'|i']|]; try (rewrite <- (IH i) by auto); try (rewrite <- (IH i') by auto); reflexivity.
  Qed.
  Lemma not_defined x : ~ In x (map fst (type_defs more)) -> is_enum_type cx (TsIdent x) = is_enum_type cx' (TsIdent x).
  Proof.
    intros N. cbn. unfold cx, cx'. cbn [typedefs ctx]. rewrite type_defs_app, existsb_app.
    destruct (existsb _ (type_defs more)) eqn:e; [|now rewrite orb_false_r]. exfalso. apply existsb_exists in e as ([y t] & I & E).
    destruct t as [|z l| |]; try discriminate. cbn in E. apply String.eqb_eq in E as <-. apply N. apply in_map_iff. exists (y, TdEnum x l).
    split; [|easy]. cbn. unfold type_defs in I. apply in_flat_map in I as (d & _ & I). destruct d; try easy. cbn in I.
    destruct (typedef_name t) eqn:T; [|easy]. destruct I as [[= <- ->]|[]]. cbn in T. congruence.
  Qed.
  Lemma app_enum x : K x -> is_enum_type cx (TsIdent x) = is_enum_type cx' (TsIdent x).
  Proof. intros H. apply not_defined. intros I. apply (k_new H). right. now right. Qed.
  Lemma app_resolve n x : K x -> resolve_type_token cx n x = resolve_type_token cx' n x.
  Proof.
    revert x. induction n as [|n IH]; intros x H; cbn [resolve_type_token]; [easy|]. change (cx_config cx') with (cx_config cx).
    rewrite <- (app_type H). destruct (remove_typedef (cx_config cx)); [|easy]. destruct (assoc _ x (typedefs cx)) as [[d| | |]|] eqn:e; try easy.
    rewrite (@on_type cx cx' n K IH); [easy|]. intros y M. right. right. right. exists x, (TdDecl d). split; [exact (assoc_in e)|].
    right. exists d. split; [now left|easy].
  Qed.
  Lemma app_token n x t : In (x, t) (type_defs ds) -> type_token_of cx n (x, t) = type_token_of cx' n (x, t).
  Proof.
    intros I. apply (@on_token cx cx' n K); auto using app_resolve, app_name, app_enum, not_defined.
    - intros [y v] Ia z E. cbn in E. subst. right. right. left. exists y. apply in_flat_map. exists (x, t). auto.
    - intros v Iv y ->. right. right. right. exists x, t. auto.
    - intros d Id y M. right. right. right. exists x, t. split; [easy|]. right. exists d. auto.
  Qed.

  Lemma gmap_app {A B} (g : A -> gres B) l m r : gmap g (l ++ m) = GOk r -> exists a b, gmap g l = GOk a /\ gmap g m = GOk b /\ r = a ++ b.
  Proof.
    revert r. induction l as [|x l IH]; intros r; cbn; [intros H; now exists [], r|].
    intros H. apply gbind_ok in H as (b & E & H). apply gbind_ok in H as (bs & H & [= <-]). apply IH in H as (a & c & -> & -> & ->).
    exists (b :: a), c. cbn. rewrite E. auto.
  Qed.
  Lemma append_gen n f' : gen_code n cfg (ds ++ more) = GOk f' -> exists f cs ts, gen_code n cfg ds = GOk f /\
    fi_uses f' = fi_uses f /\ fi_consts f' = fi_consts f ++ cs /\ fi_types f' = fi_types f ++ ts.
  Proof.
    rewrite !gen_code_eq. intros H. apply gbind_ok in H as (cs & HC & H). apply gbind_ok in H as (ts & HT & H). cbv zeta in H. injection H as <-.
    unfold constants_token in HC. cbn [constants ctx] in HC. unfold const_defs in HC. rewrite flat_map_app in HC.
    apply gmap_app in HC as (c1 & c2 & HC & _ & ->). unfold types_token in HT. apply gbind_ok in HT as (l & HT & [= <-]).
    cbn [typedefs ctx] in HT. rewrite type_defs_app in HT. apply gmap_app in HT as (t1 & t2 & HT & _ & ->).
    rewrite (@gmap_ext _ _ _ (type_token_of cx n)) in HT by (intros [x t] I; symmetry; now apply app_token).
    unfold constants_token, types_token. cbn [constants typedefs ctx]. unfold const_defs. rewrite HC. cbn [gbind]. fold cx. rewrite HT. cbn [gbind].
    eexists _, c2, (concat t2). split; [reflexivity|]. cbn. split; [easy|]. split; [easy|]. apply concat_app.
  Qed.
End Append.

Lemma append_kept cfg ds more f' : unknown_names ds more -> ~ In "String"%string (map fst (type_defs more)) ->
  greturns (fun n => gen_code n cfg (ds ++ more)) (GOk f') -> exists f cs ts, greturns (fun n => gen_code n cfg ds) (GOk f) /\
    fi_uses f' = fi_uses f /\ fi_consts f' = fi_consts f ++ cs /\ fi_types f' = fi_types f ++ ts.
Proof.
  intros U N [NF [k H]]. destruct (append_gen U N (H k (le_n k))) as (f & cs & ts & G & Q). exists f, cs, ts. split; [|exact Q]. split; [easy|].
  exists k. intros n L. rewrite <- G. apply (@gen_mono cfg ds k n L). rewrite G. discriminate.
Qed.

Lemma rpcgen_gen fl checks src ds r : greturns (fun n => parse n src) (GOk ds) ->
  greturns (fun n => rpcgen n fl checks src) r <-> greturns (fun n => gen_code n (main_config fl checks) ds) r.
Proof.
  intros [_ [k P]]. unfold rpcgen.
  assert (Q : forall n, (k <= n)%nat -> (decls <~ parse n src;; gen_code n (main_config fl checks) decls) = gen_code n (main_config fl checks) ds).
  { intros n L. now rewrite (P n L). }
  split; intros [NF [j H]]; (split; [easy|]); exists (Nat.max j k); intros n L; [rewrite <- Q by lia|rewrite Q by lia]; apply H; lia.
Qed.
Lemma append_text fl checks src src' ds more f' : greturns (fun n => parse n src) (GOk ds) -> greturns (fun n => parse n src') (GOk more) ->
  unknown_names ds more -> ~ In "String"%string (map fst (type_defs more)) ->
  greturns (fun n => rpcgen n fl checks (src ++ src')) (GOk f') ->
  exists f cs ts, greturns (fun n => rpcgen n fl checks src) (GOk f) /\
    fi_uses f' = fi_uses f /\ fi_consts f' = fi_consts f ++ cs /\ fi_types f' = fi_types f ++ ts.
Proof.
  intros P P' U N H. pose proof (c_concat P P' (b := []) ltac:(constructor) (or_intror (or_intror eq_refl))) as PP. cbn [app] in PP.
  apply (rpcgen_gen fl checks _ PP) in H. destruct (append_kept U N H) as (f & cs & ts & G & Q). exists f, cs, ts. split; [|exact Q].
  now apply (rpcgen_gen fl checks _ P).
Qed.
