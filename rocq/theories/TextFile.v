(** The text of a generated file is split into its tokens, and parsed as its
    items when its names can be used. *)
From Verif Require Import Base RustTypes SpecCase Nom NomFacts Ast ParserModel CaseModel CaseProofs RustAst GenModel SpecGen SpecXdl GenSem WireBase
  SpecWire RustText SpecRust SpecSyntax TextLex TextParse TextItems TextGen.
Set Implicit Arguments.
Unset Strict Implicit.
Local Open Scope string_scope.
Local Open Scope list_scope.
Local Open Scope nat_scope.

Notation Sp := (Forall spelled).
Lemma sp_w x : ident x -> Sp (w x).
Proof. intros H. constructor; [now constructor|constructor]. Qed.
Lemma sp_o s : In s used_ops -> Sp (o s).
Proof. intros H. constructor; [now constructor|constructor]. Qed.
Lemma sp_parens l : Sp l -> Sp (parens l).
Proof. intros H. constructor; [now constructor|constructor]. Qed.
Lemma sp_brackets l : Sp l -> Sp (brackets l).
Proof. intros H. constructor; [now constructor|constructor]. Qed.
Lemma sp_braces l : Sp l -> Sp (braces l).
Proof. intros H. constructor; [now constructor|constructor]. Qed.
Lemma sp_num s z : In s used_suffixes -> small z -> Sp (num s z).
Proof. intros H K. constructor; [now constructor|constructor]. Qed.
Lemma sp_app a b : Sp a -> Sp b -> Sp (a ++ b).
Proof. intros. now apply Forall_app. Qed.
Lemma sp_life : Sp [CLife "static"].
Proof. constructor; [now constructor|constructor]. Qed.
Lemma sp_commas {A} (f : A -> list call) l : (forall a, In a l -> Sp (f a)) -> Sp (commas (map f l)).
Proof.
  induction l as [|a l IH]; intros H; [constructor|]. destruct l as [|b l]; [apply H; now left|].
  change (commas (map f (a :: b :: l))) with (f a ++ o "," ++ commas (map f (b :: l))).
  repeat apply sp_app; [apply H; now left|apply sp_o; cbn; tauto|]. apply IH. intros. apply H. now right.
Qed.
Lemma sp_value s v : In s used_suffixes -> tok_ok v -> Sp (value_calls s v).
Proof. destruct v; cbn [value_calls]; intros; [now apply sp_num|now apply sp_w]. Qed.
Ltac sp :=
  repeat first
    [ apply sp_app | apply sp_parens | apply sp_brackets | apply sp_braces | apply sp_life | exact (Forall_nil _)
    | apply sp_value; [now in_list|] | apply sp_num; [now in_list|] | apply sp_o; now in_list
    | apply sp_w; (assumption || reflexivity) ].
Lemma sp_dcolon a b : Sp a -> Sp b -> Sp (dcolon a b).
Proof. intros. unfold dcolon. now sp. Qed.
Lemma sp_arm a b : Sp a -> Sp b -> Sp (arm a b).
Proof. intros. unfold arm. now sp. Qed.
Lemma sp_wild b : Sp b -> Sp (wild_arm b).
Proof. intros. unfold wild_arm. apply sp_app; [apply sp_arm; [now sp|assumption]|sp]. Qed.
Lemma sp_var_array : Sp var_array.
Proof. unfold var_array. apply sp_dcolon; [sp|apply sp_dcolon; sp]. Qed.
Lemma sp_xdr_error : Sp xdr_error.
Proof. unfold xdr_error. apply sp_dcolon; [sp|apply sp_dcolon; sp]. Qed.
Lemma sp_global_error : Sp global_error.
Proof. unfold global_error. apply sp_app; [sp|apply sp_xdr_error]. Qed.
Lemma sp_stringify l : Sp l -> Sp (stringify l).
Proof. intros. unfold stringify. now sp. Qed.
Lemma sp_ok l : Sp l -> Sp (ok l).
Proof. intros. unfold ok. now sp. Qed.
Lemma sp_convert : Sp err_convert.
Proof. unfold err_convert. sp. Qed.
Lemma sp_type_error e : Sp e -> Sp (type_error e).
Proof. intros. unfold type_error. now sp. Qed.
Lemma sp_result : Sp result_str.
Proof. unfold result_str. sp. Qed.
Ltac spell :=
  repeat (first [assumption | lazymatch goal with
    | |- Forall spelled (_ ++ _) => apply sp_app
    | |- Forall spelled (parens _) => apply sp_parens
    | |- Forall spelled (brackets _) => apply sp_brackets
    | |- Forall spelled (braces _) => apply sp_braces
    | |- Forall spelled [CLife _] => apply sp_life
    | |- Forall spelled [] => constructor
    | |- Forall spelled (dcolon _ _) => apply sp_dcolon
    | |- Forall spelled (arm _ _) => apply sp_arm
    | |- Forall spelled (wild_arm _) => apply sp_wild
    | |- Forall spelled var_array => apply sp_var_array
    | |- Forall spelled xdr_error => apply sp_xdr_error
    | |- Forall spelled global_error => apply sp_global_error
    | |- Forall spelled (stringify _) => apply sp_stringify
    | |- Forall spelled (ok _) => apply sp_ok
    | |- Forall spelled err_convert => apply sp_convert
    | |- Forall spelled (type_error _) => apply sp_type_error
    | |- Forall spelled result_str => apply sp_result
    | |- Forall spelled (value_calls _ _) => apply sp_value; [now in_list|]
    | |- Forall spelled (num _ _) => apply sp_num; [now in_list|]
    | |- Forall spelled (o _) => apply sp_o; now in_list
    | |- Forall spelled (w _) => apply sp_w; (assumption || reflexivity)
    end]).

Lemma sp_ty t : ty_ok t -> Sp (ty_calls t).
Proof.
  induction t as [s k| | | | |x|t IH len cast|t IH| |t IH|t IH|]; cbn [ty_ok ty_calls]; intros H; spell; auto.
  - apply sp_w. now destruct s, k.
  - now apply IH.
  - exact (proj2 H).
  - destruct cast; spell.
Qed.
Lemma sp_attr a : Sp (attr_calls a).
Proof.
  assert (S : forall s, Forall (fun c => c <> """"%char /\ c <> "\"%char) (chars s) -> Sp [CStr s])
    by (intros s H; constructor; [now constructor|constructor]).
  destruct a; cbn [attr_calls]; spell; apply S; cbn; repeat (constructor; [split; discriminate|]); constructor.
Qed.
Lemma sp_derives l : Forall ident l -> Sp (derive_calls l).
Proof. intros H. unfold derive_calls. spell. apply sp_commas. intros x Hx. rewrite Forall_forall in H. now apply sp_w, H. Qed.
Lemma sp_default x v : ident x -> Sp v -> Sp (default_impl x v).
Proof. intros. unfold default_impl. spell. Qed.
Lemma sp_indexer x ix : ident x -> Forall (fun p => small (fst p) /\ tok_ok (snd p)) (ix_names ix) -> if_some tok_ok (ix_other ix) ->
  Forall (fun p => small (snd p) /\ tok_ok (fst (fst p))) (ix_index ix) -> Sp (indexer_calls x ix).
Proof.
  intros X A B C. rewrite Forall_forall in A, C. unfold indexer_calls. spell.
  - apply sp_commas. intros p Hp. destruct (A p Hp). spell.
  - destruct (ix_other ix) as [v|]; spell.
  - apply sp_commas. intros [[v b] z] Hp. destruct (C _ Hp) as [C1 C2]. cbn [fst snd] in *. spell. destruct b; spell.
  - destruct (ix_unimplemented ix); spell.
Qed.
Lemma sp_union x ui : ident x -> if_some ty_ok (ui_disc ui) -> Forall (fun p => gen_pat_ok (fst p) /\ tok_ok (snd p)) (ui_names ui) ->
  if_some (if_some tok_ok) (ui_other ui) -> Sp (union_calls x ui).
Proof.
  intros X D A O. rewrite Forall_forall in A. unfold union_calls.
  assert (SD : Sp (match ui_disc ui with Some t => ty_calls t | None => [] end)) by (destruct (ui_disc ui); [now apply sp_ty|constructor]).
  cbv zeta. spell.
  - apply sp_commas. intros p Hp. destruct (A p Hp) as [P V]. spell. destruct (fst p) as [b|z|t y]; cbn [pat_calls gen_pat_ok] in *.
    + apply sp_w. now destruct b.
    + spell.
    + destruct P. spell.
  - destruct (ui_other ui) as [[v|]|]; cbn in O; spell.
Qed.
Lemma sp_as_ref x l : ident x -> Forall (fun p => ident (fst p) /\ small (snd p)) l -> Sp (as_ref_calls x l).
Proof. intros X A. rewrite Forall_forall in A. unfold as_ref_calls. spell. apply sp_commas. intros p Hp. destruct (A p Hp). spell. Qed.
Lemma sp_try_from x l : ident x -> Forall (fun p => ident (snd p) /\ small (fst p)) l -> Sp (try_from_calls x l).
Proof. intros X A. rewrite Forall_forall in A. unfold try_from_calls. spell. apply sp_commas. intros p Hp. destruct (A p Hp). spell. Qed.
Lemma sp_option {A} (f : A -> list call) a : if_some (fun a => Sp (f a)) a -> Sp (option_calls f a).
Proof. destruct a; [easy|constructor]. Qed.
Lemma some_mono {A} (P Q : A -> Prop) a : if_some P a -> (forall b, P b -> Q b) -> if_some Q a.
Proof. destruct a; cbn; auto. Qed.

Lemma sp_enum e : enum_made e -> Sp (enum_calls e).
Proof.
  intros (X & V & D & R & T & I).
  assert (N : forall y, In y (enum_names e) -> ident y).
  { intros y Hy. apply in_map_iff in Hy as (p & <- & Hp). rewrite Forall_forall in V. apply V, Hp. }
  assert (K : forall v, In v (map TokId (enum_names e)) -> tok_ok v) by (intros v Hv; apply in_map_iff in Hv as (y & <- & Hy); now apply N).
  unfold enum_calls. rewrite Forall_forall in V. spell.
  - apply sp_derives. destruct (en_derive e); repeat constructor.
  - apply sp_commas. intros p Hp. destruct (V p Hp). spell.
  - apply sp_default; [exact X|]. now apply sp_w, N.
  - apply sp_option. eapply some_mono; [exact R|]. intros l L. apply sp_as_ref; [exact X|]. eapply Forall_impl; [|exact L]. intros p []. auto.
  - apply sp_option. eapply some_mono; [exact T|]. intros l [_ L]. apply sp_try_from; [exact X|]. eapply Forall_impl; [|exact L]. intros p []. auto.
  - apply sp_option. eapply some_mono; [exact I|]. intros ix (I1 & I2 & I3). apply sp_indexer; [exact X| | |].
    + eapply Forall_impl; [|exact I1]. intros p []. auto.
    + eapply some_mono; [exact I2|auto].
    + eapply Forall_impl; [|exact I3]. intros p []. auto.
Qed.
Lemma sp_struct s : struct_made s -> Sp (struct_calls s).
Proof.
  intros (X & F). rewrite Forall_forall in F. unfold struct_calls. spell.
  - apply sp_derives. repeat constructor.
  - apply sp_commas. intros fd Hf. destruct (F fd Hf) as [I T]. unfold field_calls. spell.
    + apply sp_attr.
    + constructor; [|constructor]. destruct (fd_name fd); cbn in I; [now constructor|now constructor].
    + now apply sp_ty.
Qed.
Lemma sp_union_item u : union_made u -> Sp (union_item_calls u).
Proof.
  intros (X & V & D & I & U).
  assert (K : forall v, In v (va_names (un_variants u)) -> tok_ok v).
  { intros v Hv. apply in_map_iff in Hv as (p & <- & Hp). rewrite Forall_forall in V. apply V, Hp. }
  unfold union_item_calls. rewrite Forall_forall in V. spell.
  - apply sp_derives. destruct (un_derive u); repeat constructor.
  - apply sp_commas. intros v Hv. destruct (V v Hv) as [V1 V2]. unfold variant_calls. spell; [apply sp_attr|].
    destruct (va_tys v) as [|t l]; [constructor|]. spell. apply sp_commas. intros t' Ht. rewrite Forall_forall in V2. now apply sp_ty, V2.
  - apply sp_default; [exact X|]. unfold default_calls. spell; [now apply K|]. destruct (snd (un_default u)) as [|k]; [constructor|].
    spell. rewrite <- repeat_units. apply sp_commas. intros [] _. spell.
  - apply sp_option. eapply some_mono; [exact I|]. intros ix (I1 & I2 & I3). apply sp_indexer; [exact X| | |].
    + eapply Forall_impl; [|exact I1]. intros p []. auto.
    + eapply some_mono; [exact I2|auto].
    + eapply Forall_impl; [|exact I3]. intros p []. auto.
  - apply sp_option. eapply some_mono; [exact U|]. intros ui (U1 & U2 & U3). apply sp_union; [exact X|exact U1| |].
    + eapply Forall_impl; [|exact U2]. intros p []. auto.
    + eapply some_mono; [exact U3|]. intros v Hv. eapply some_mono; [exact Hv|auto].
Qed.
Lemma sp_type i : made i -> Sp (type_calls i).
Proof.
  destruct i as [x t|e|s|u]; cbn [made type_calls].
  - intros [X T]. spell. now apply sp_ty.
  - apply sp_enum.
  - apply sp_struct.
  - apply sp_union_item.
Qed.
Lemma sp_flat {A} (f : A -> list call) l : (forall a, In a l -> Sp (f a)) -> Sp (flat_map f l).
Proof. induction l as [|a l IH]; intros H; [constructor|]. cbn. apply sp_app; [apply H; now left|]. apply IH. intros. apply H. now right. Qed.
Lemma sp_use a b : Sp a -> Sp b -> Sp (use_calls a b).
Proof. intros. unfold use_calls. spell. Qed.
Lemma sp_file f : file_made f -> Sp (file_calls f).
Proof.
  intros (C & T & _). rewrite Forall_forall in C, T. unfold file_calls. apply sp_app; [|apply sp_app; [|apply sp_app]].
  - apply sp_use; spell.
  - apply sp_flat. intros g _. destruct g; cbn [group_calls]; spell; apply sp_use; spell.
  - apply sp_flat. intros c Hc. destruct (C c Hc). unfold const_calls. cbv zeta. destruct (co_wide c); spell.
  - apply sp_flat. intros i Hi. now apply sp_type, T.
Qed.

(** ** Tokens *)
Lemma printed_trees f : file_made f -> read_trees (printed f) = Some (T (file_calls f)).
Proof.
  intros M. unfold printed, file_text. apply text_trees; [now apply sp_file| |].
  - cbn. tauto.
  - apply lexed_newline.
Qed.

(** ** Sizes *)
Lemma size_app a b : forest_size (a ++ b) = forest_size a + forest_size b.
Proof. unfold forest_size. induction a as [|t a IH]; [reflexivity|]. cbn [app fold_right]. rewrite IH. lia. Qed.
Lemma size_node d ts r : forest_size (Node d ts :: r) = S (S (forest_size ts)) + forest_size r.
Proof. reflexivity. Qed.
Lemma size_leaf l r : forest_size (Leaf l :: r) = S (forest_size r).
Proof. reflexivity. Qed.
Lemma need_size t : need t <= forest_size (T (ty_calls t)) + 4.
Proof.
  induction t as [s k| | | | |x|t IH len cast|t IH| |t IH|t IH|]; cbn [need ty_calls]; try (cbn; lia).
  - rewrite T_brackets, size_node, T_app, size_app. lia.
  - rewrite !T_app, !size_app, !T_w, !T_o, !size_leaf. lia.
  - rewrite !T_app, !size_app, !T_w, !T_o, !size_leaf. lia.
  - rewrite !T_app, !size_app, !T_w, !T_o, !size_leaf. lia.
Qed.
Lemma size_commas {A} (f : A -> list call) l a : In a l -> forest_size (T (f a)) <= forest_size (T (commas (map f l))).
Proof.
  induction l as [|b l IH]; intros H; [easy|]. destruct l as [|c l].
  - destruct H as [<-|[]]. reflexivity.
  - change (commas (map f (b :: c :: l))) with (f b ++ o "," ++ commas (map f (c :: l))). rewrite !T_app, !size_app.
    destruct H as [<-|H]; [lia|]. specialize (IH H). lia.
Qed.
Lemma size_flat {A} (f : A -> list call) l a : In a l -> forest_size (T (f a)) <= forest_size (T (flat_map f l)).
Proof.
  induction l as [|b l IH]; intros H; [easy|]. cbn [flat_map]. rewrite T_app, size_app. destruct H as [<-|H]; [lia|]. specialize (IH H). lia.
Qed.

(** ** Items *)
Lemma words_plain f : legible f -> Wd (file_words f).
Proof. intros (H & _). eapply Forall_impl; [|exact H]. intros x. apply word_plain. Qed.
Lemma file_prefix f n : legible f -> 6 <= n -> forest_size (T (flat_map type_calls (fi_types f))) + 5 <= n ->
  prefix_of n (file_calls f) (items_of f).
Proof.
  intros L N S. pose proof (words_plain L) as W. destruct L as (_ & FI & IL). unfold file_calls, items_of.
  unfold file_words in W. apply Forall_app in W as [WC WT].
  apply prefix_app with (i := [_]); [now apply use_first|]. apply prefix_app; [|apply prefix_app].
  - apply prefix_flat. intros g _. now apply use_ok.
  - apply prefix_map. intros c Hc. apply const_ok; [exact N|]. exact (forall_flat WC Hc).
  - apply prefix_flat. intros i Hi. pose proof (forall_flat WT Hi) as W. rewrite Forall_forall in IL. specialize (IL i Hi).
    pose proof (size_flat type_calls Hi) as SI.
    destruct i as [x t|e|s|u]; cbn [type_calls type_items].
    + apply alias_ok; [exact W|]. cbn [type_calls] in SI. rewrite !T_app, !size_app in SI. pose proof (need_size t). lia.
    + now apply enum_ok.
    + cbn [item_words] in W. inversion W as [|? ? W1 W2]; subst. apply struct_ok; [exact W1|]. intros fd Hf. repeat split.
      * rewrite Forall_forall in FI. assert (Q : In (fd_name fd) (field_idents f)).
        { apply in_flat_map. exists (IStruct s). split; [exact Hi|]. now apply in_map. }
        specialize (FI _ Q). unfold ident_plain. destruct (fd_name fd); [now apply word_plain|exact Logic.I].
      * exact (forall_flat W2 Hf).
      * pose proof (size_commas field_calls Hf) as SF. pose proof (need_size (fd_ty fd)) as NF. cbn [type_calls] in SI. unfold struct_calls in SI.
        unfold field_calls in SF at 1. rewrite !T_app, !size_app in SF. rewrite !T_app, !size_app, T_braces, size_node in SI. lia.
    + apply union_item_ok; [exact N|exact W|exact IL| |].
      * intros v t Hv Ht. pose proof (size_commas variant_calls Hv) as SF. pose proof (need_size t) as NF. cbn [type_calls] in SI. unfold union_item_calls in SI.
        unfold variant_calls in SF at 1. rewrite !T_app, !size_app in SF. rewrite !T_app, !size_app, T_braces, size_node in SI.
        pose proof (size_commas ty_calls Ht) as ST. destruct (va_tys v) as [|t' l]; [easy|]. rewrite T_parens, size_node in SF. lia.
      * intros ui d Hu Hd. pose proof (need_size d) as NF. cbn [type_calls] in SI. unfold union_item_calls in SI. rewrite Hu in SI. cbn [option_calls] in SI.
        unfold union_calls in SI. rewrite Hd in SI. cbv zeta in SI. rewrite !T_app, !size_app, !T_w, !size_leaf in SI. lia.
Qed.
Lemma size_first : forest_size (T (use_calls (w "serde") (braces (w "Deserialize" ++ o "," ++ w "Serialize")))) = 9.
Proof. reflexivity. Qed.
Theorem made_read f : file_made f -> legible f -> read_rust (printed f) = Some (items_of f).
Proof.
  intros M L. unfold read_rust. rewrite printed_trees by exact M. cbv beta iota.
  set (n := S (S (S (2 * forest_size (T (file_calls f)))))).
  assert (S : 9 + forest_size (T (flat_map type_calls (fi_types f))) <= forest_size (T (file_calls f))).
  { unfold file_calls. rewrite !T_app, !size_app. rewrite size_first. lia. }
  assert (P := @file_prefix f n L ltac:(unfold n; lia) ltac:(unfold n; lia) [] [] (many_nil _)). rewrite !app_nil_r in P.
  now apply Many_list.
Qed.
