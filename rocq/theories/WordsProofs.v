(** Exactly when a type or a constant is named by a Rust keyword (C69, C70). *)
From Verif Require Import Base Nom Ast SpecGrammar SpecParse ParseSound ParserModel CaseModel SpecCase RustAst GenModel SpecGen SpecItems GenFacts GenLemmas
  SpecXdl GenSem SpecWire WireBase WireEnum EmitNames SpecWords.
Set Implicit Arguments.
Unset Strict Implicit.
Local Open Scope list_scope.

Lemma item_for_named d i : item_for d i -> camel_of (fst d) (item_name i).
Proof. destruct d as [x [t|y l|y l|y b]], i; cbn; easy. Qed.

Lemma type_words_exact cfg ds f : greturns (fun n => gen_code n cfg ds) (GOk f) ->
  ((exists i, In i (fi_types f) /\ In (item_name i) rust_words) <->
   (exists d, In d (item_defs (remove_typedef cfg) ds) /\ camel_of (fst d) "Self")).
Proof.
  intros H. pose proof (c55 H) as F. split.
  - intros (i & Hi & W). assert (E := type_words H Hi W). clear H W.
    induction F as [|d j l l' h F IH]; [easy|]. destruct Hi as [->|Hi].
    + exists d. split; [now left|]. rewrite <- E. now apply item_for_named.
    + destruct (IH Hi) as (d' & ? & ?). exists d'. split; [now right|easy].
  - intros (d & Hd & C). clear H. induction F as [|d' j l l' h F IH]; [easy|]. destruct Hd as [->|Hd].
    + exists j. split; [now left|]. apply item_for_named in h. apply camel_of_iff in h, C. rewrite h, <- C.
      unfold rust_words. cbn. tauto.
    + destruct (IH Hd) as (i & ? & ?). exists i. split; [now right|easy].
Qed.

Lemma const_words_exact cfg ds f : greturns (fun n => gen_code n cfg ds) (GOk f) ->
  ((exists c, In c (fi_consts f) /\ In (co_name c) rust_words) <-> (exists x v, In (x, v) (const_defs ds) /\ In x rust_words)).
Proof.
  intros H. apply const_words in H. split.
  - intros (c & Hc & W). apply (in_map co_name) in Hc. rewrite H in Hc. apply in_map_iff in Hc as ((x & v) & E & Hx). cbn in E. subst. eauto.
  - intros (x & v & Hx & W). apply (in_map fst) in Hx. rewrite <- H in Hx. apply in_map_iff in Hx as (c & E & Hc). cbn in E. exists c. now rewrite E.
Qed.

(** ** Names that become Self *)
Lemma big_S c : big c = "S"%char -> small c = "s"%char.
Proof. destruct c as [[] [] [] [] [] [] [] []]; vm_compute; congruence. Qed.
Lemma small_s c : small c = "s"%char -> big c = "S"%char.
Proof. destruct c as [[] [] [] [] [] [] [] []]; vm_compute; congruence. Qed.
Lemma big_S_cases c : big c = "S"%char -> c = "s"%char \/ c = "S"%char.
Proof. destruct c as [[] [] [] [] [] [] [] []]; vm_compute; intros E; try discriminate E; auto. Qed.
Lemma big_not_small c : ~ In (big c) (chars "elf").
Proof. destruct c as [[] [] [] [] [] [] [] []]; vm_compute; intuition discriminate. Qed.
Lemma titled_self p : titled p = chars "Self" <-> map small p = chars "self".
Proof.
  destruct p as [|c p]; [easy|]. cbn. split; intros E; injection E as E1 E2.
  - now rewrite (big_S E1), E2.
  - now rewrite (small_s E1), E2.
Qed.

Lemma rest_empty ps r : concat (map titled ps) = r -> (forall c, In c r -> In c (chars "elf")) -> ps = repeat [] (length ps).
Proof.
  intros <- H. induction ps as [|p ps IH]; [easy|]. cbn in *. destruct p as [|c p]; cbn in *.
  - f_equal. now apply IH.
  - destruct (@big_not_small c). apply H. now left.
Qed.

Lemma parts_self ps : concat (map titled ps) = chars "Self" ->
  exists a b p, ps = repeat [] a ++ p :: repeat [] b /\ map small p = chars "self".
Proof.
  induction ps as [|p ps IH]; [easy|]. destruct p as [|c p].
  - intros E. destruct (IH E) as (a & b & q & -> & Q). now exists (S a), b, q.
  - cbn [map concat titled app]. intros E. injection E as E1 E2.
    exists O, (length ps), (c :: p). assert (R : ps = repeat [] (length ps)).
    { apply (@rest_empty ps _ eq_refl). intros x Hx. change (In x ["e"%char; "l"%char; "f"%char]). rewrite <- E2. apply in_or_app. now right. }
    split; [cbn; now rewrite <- R|]. rewrite R in E2. assert (Z : concat (map titled (repeat [] (length ps))) = []) by (clear; induction (length ps); easy).
    rewrite Z, app_nil_r in E2. cbn. now rewrite (big_S E1), E2.
Qed.

Lemma join_right p b : join (p :: repeat [] b) = p ++ repeat underscore b.
Proof.
  revert p. induction b as [|b IH]; intros p; [cbn; now rewrite app_nil_r|]. cbn [repeat].
  change (join (p :: [] :: repeat [] b)) with (p ++ underscore :: join ([] :: repeat [] b)). now rewrite IH.
Qed.
Lemma join_both a p b : join (repeat [] a ++ p :: repeat [] b) = repeat underscore a ++ p ++ repeat underscore b.
Proof.
  induction a as [|a IH]; [apply join_right|]. cbn [repeat app]. rewrite <- IH.
  destruct (repeat [] a ++ p :: repeat [] b) eqn:E; [now destruct a|easy].
Qed.

Lemma self_names x : camel_of x "Self" <-> self_name x.
Proof.
  unfold camel_of, camelled, self_name. split.
  - intros [[_ E]|(ps & L & _ & J & E)].
    + left. pose proof (@chars_inj x) as X.
      destruct (chars x) as [|c t]; [easy|]. cbn in E. injection E as E1 E2. subst t.
      destruct (big_S_cases (eq_sym E1)) as [->| ->]; [left|right; left]; symmetry; now apply X.
    + right. symmetry in E. apply parts_self in E as (a & b & p & -> & Q). exists a, b, p. rewrite J, join_both. split; [|easy].
      rewrite app_length, repeat_length in L. cbn in L. rewrite repeat_length in L. lia.
  - intros [[<-|[<-|[]]]|(a & b & p & L & E & Q)].
    + left. split; [|easy]. cbn. intuition discriminate.
    + left. split; [|easy]. cbn. intuition discriminate.
    + right. exists (repeat [] a ++ p :: repeat [] b). rewrite E, join_both. repeat split.
      * rewrite app_length, repeat_length. cbn. rewrite repeat_length. lia.
      * assert (K : forall n, Forall (fun p : text => ~ In underscore p) (repeat [] n)) by (intros n; induction n; constructor; easy).
        apply Forall_app. split; [apply K|]. constructor; [|apply K]. intros I. apply (in_map small) in I. rewrite Q in I.
        revert I. vm_compute. intuition discriminate.
      * rewrite map_app, concat_app. cbn. assert (K : forall n, concat (map titled (repeat [] n)) = []) by (intros n; induction n; easy).
        rewrite !K, app_nil_r. cbn. symmetry. now apply titled_self.
Qed.

Lemma self_types_exact cfg ds f : greturns (fun n => gen_code n cfg ds) (GOk f) ->
  ((exists i, In i (fi_types f) /\ In (item_name i) rust_words) <->
   (exists x t, In (x, t) (item_defs (remove_typedef cfg) ds) /\ self_name x)).
Proof.
  intros H. rewrite (type_words_exact H). split.
  - intros ((x & t) & I & C). exists x, t. split; [easy|]. now apply self_names.
  - intros (x & t & I & C). exists (x, t). split; [easy|]. now apply self_names.
Qed.

Lemma self_cases : self_name "self" /\ self_name "_SELF__" /\ ~ self_name "selfish" /\ ~ self_name "SELF" /\ ~ self_name "se_lf".
Proof.
  split; [now left; left|]. split; [right; exists 1%nat, 2%nat, (chars "SELF"); split; [lia|easy]|].
  repeat split; intros H; apply self_names, camel_of_iff in H; vm_compute in H; discriminate H.
Qed.
