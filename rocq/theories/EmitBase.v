(** The generator looks at the definitions of a file only through the
    resolution of names. *)
From Verif Require Import Base RustTypes Nom NomFacts Keyword Ast ParserModel SpecGrammar SpecParse
  ConstProofs CaseModel SpecCase CaseProofs RustAst GenModel SpecGen SpecItems GenFacts GenTotal SpecEmit.
Set Implicit Arguments.
Unset Strict Implicit.
Local Open Scope list_scope.

Lemma gmap_ext {A B} (f g : A -> gres B) l : (forall a, In a l -> f a = g a) -> gmap f l = gmap g l.
Proof.
  induction l as [|a l IH]; intros H; cbn; [easy|]. rewrite (H a) by now left.
  rewrite IH; [easy|]. intros b Hb. apply H. now right.
Qed.
Lemma gbind_ext {A B} (r : gres A) (f g : A -> gres B) : (forall a, r = GOk a -> f a = g a) -> gbind r f = gbind r g.
Proof. destruct r; cbn; auto. Qed.

Section Same.
  Variables (cx cx' : context) (n : nat).
  Hypothesis CFG : cx_config cx = cx_config cx'.
  Hypothesis RT : forall x, resolve_type_token cx n x = resolve_type_token cx' n x.
  Hypothesis RN : forall k x, resolve_name cx n k x = resolve_name cx' n k x.
  Hypothesis IE : forall t, is_enum_type cx t = is_enum_type cx' t.

  Lemma same_value k v : resolve_value cx n k v = resolve_value cx' n k v.
  Proof. destruct v; cbn; auto. Qed.
  Lemma same_primitive t : convert_primitive_token (resolve_type_token cx n) t = convert_primitive_token (resolve_type_token cx' n) t.
  Proof. destruct t; cbn; auto. Qed.
  Lemma same_type d : convert_type_token (resolve_type_token cx n) d = convert_type_token (resolve_type_token cx' n) d.
  Proof. destruct d; cbn [convert_type_token]; try easy; now rewrite same_primitive. Qed.

  Lemma same_enum_values s l : enum_values cx s l = enum_values cx' s l.
  Proof.
    revert s. induction l as [|[e x] l IH]; intros s; cbn [enum_values]; [easy|]. rewrite CFG.
    apply gbind_ext. intros ? _. apply gbind_ext. intros ? _. apply gbind_ext. intros z _. now rewrite IH.
  Qed.
  Lemma same_enum x l : convert_enum_token cx n x l = convert_enum_token cx' n x l.
  Proof.
    unfold convert_enum_token.
    rewrite (@gmap_ext _ _ (fun a => z <~ resolve_value cx n KI32 (as_value a);; GOk (z, as_name a))
                           (fun a => z <~ resolve_value cx' n KI32 (as_value a);; GOk (z, as_name a)))
      by (intros; now rewrite same_value).
    apply gbind_ext. intros ix _. apply gbind_ext. intros nm _. rewrite same_enum_values, CFG. reflexivity.
  Qed.
  Lemma same_field x d : struct_field cx n x d = struct_field cx' n x d.
  Proof.
    unfold struct_field. destruct (decl_name d); [|easy]. rewrite same_type, CFG.
    apply gbind_ext. intros o _. apply gbind_ext. intros [ty op] _.
    replace (match decl_type d with Some t => is_enum_type cx t | None => false end)
      with (match decl_type d with Some t => is_enum_type cx' t | None => false end); [easy|].
    destruct (decl_type d); [|easy]. symmetry. apply IE.
  Qed.
  Lemma same_struct_token x l : convert_struct_token cx n x l = convert_struct_token cx' n x l.
  Proof. unfold convert_struct_token. f_equal. apply gmap_ext. intros; apply same_field. Qed.

  Lemma same_case v d c : convert_case_token cx n v d c = convert_case_token cx' n v d c.
  Proof. unfold convert_case_token. rewrite same_primitive, same_type, CFG. reflexivity. Qed.
  Lemma same_union_values c s l acc : union_values cx n c s l acc = union_values cx' n c s l acc.
  Proof.
    revert s acc. induction l as [|[[e d] v] l IH]; intros s acc; cbn [union_values]; [easy|]. rewrite CFG, same_case, IE.
    apply gbind_ext. intros ? _. apply gbind_ext. intros ? _. apply gbind_ext. intros ? _. apply gbind_ext. intros z _.
    apply IH.
  Qed.
  Lemma same_bool c b specs acc : bool_case cx n c b specs acc = bool_case cx' n c b specs acc.
  Proof.
    unfold bool_case. destruct (find _ specs) as [[vs d]|]; [|now rewrite CFG].
    destruct (find _ vs); [|easy]. now rewrite same_case.
  Qed.
  Lemma same_union_default o acc : union_default cx n o acc = union_default cx' n o acc.
  Proof. unfold union_default. destruct o; [|easy]. now rewrite same_type, CFG. Qed.
  Lemma same_union x u : convert_union_token cx n x u = convert_union_token cx' n x u.
  Proof.
    destruct u as [c specs dflt]. unfold convert_union_token. apply gbind_ext. intros nm _. apply gbind_ext. intros t _.
    match goal with |- gbind ?a _ = gbind ?b _ => assert (H : a = b); [|rewrite H] end.
    { assert (V : gmap (fun s => match s with CaseSpec vs d => gmap (fun v => z <~ resolve_value cx n KU32 v;; GOk (z, d, v)) vs end) specs =
                  gmap (fun s => match s with CaseSpec vs d => gmap (fun v => z <~ resolve_value cx' n KU32 v;; GOk (z, d, v)) vs end) specs).
      { apply gmap_ext. intros [vs d] _. apply gmap_ext. intros v _. now rewrite same_value. }
      destruct t; try easy.
      - rewrite V. apply gbind_ext. intros; apply same_union_values.
      - rewrite same_bool. apply gbind_ext. intros p _. now rewrite same_bool.
      - rewrite V. apply gbind_ext. intros; apply same_union_values. }
    apply gbind_ext. intros p _. rewrite same_union_default. apply gbind_ext. intros q _. now rewrite CFG.
  Qed.
  Lemma same_token p : type_token_of cx n p = type_token_of cx' n p.
  Proof.
    destruct p as [x [d|y l|y l|y u]]; cbn [type_token_of].
    - rewrite CFG. destruct (remove_typedef _); [easy|]. now rewrite same_type.
    - now rewrite same_enum.
    - now rewrite same_struct_token.
    - now rewrite same_union.
  Qed.
End Same.
