(** Soundness of the parser: what it accepts is a text of the grammar. *)
From Verif Require Import Base Nom Keyword Ast ParserModel SpecGrammar NomFacts.
Set Implicit Arguments.
Unset Strict Implicit.
Open Scope list_scope.

(** ** written *)
Lemma w_one p t r : piece_text p t r -> written [p] (t ++ r) r.
Proof. intros H. econstructor; [exact H|constructor]. Qed.

Lemma w_cons p l i i' r : written [p] i i' -> written l i' r -> written (p :: l) i r.
Proof.
  intros H W. inversion H as [|? ? t i1 ? P W1]; subst. inversion W1; subst.
  econstructor; eauto.
Qed.

Lemma w_app l m i i' r : written l i i' -> written m i' r -> written (l ++ m) i r.
Proof. induction 1; intros W; [exact W|]. cbn. econstructor; eauto. Qed.

Lemma w_app_inv l m i r : written (l ++ m) i r -> exists i', written l i i' /\ written m i' r.
Proof.
  revert i. induction l as [|p l IH]; intros i W; cbn in W.
  - exists i. split; [constructor|exact W].
  - inversion W as [|? ? t i1 ? P W1]; subst. destruct (IH _ W1) as (i' & A & B).
    exists i'. split; [econstructor; eauto|exact B].
Qed.

Lemma w_cons_inv p l i r : written (p :: l) i r ->
  exists t i', i = t ++ i' /\ piece_text p t i' /\ written l i' r.
Proof. intros W. inversion W; subst. eauto 6. Qed.

Lemma w_nil_inv i r : written [] i r -> i = r.
Proof. intros W. now inversion W. Qed.

Lemma w_suffix l i r : written l i r -> exists t, i = t ++ r.
Proof.
  induction 1 as [r|p l t i r _ _ [u ->]]; [now exists []|].
  exists (t ++ u). now rewrite app_assoc.
Qed.

Lemma w_length l i r : written l i r -> (length r <= length i)%nat.
Proof. intros W. destruct (w_suffix W) as [t ->]. rewrite app_length. lia. Qed.

Definition reads {A} (p : nparser A) (g : A -> Prop) (w : A -> list piece) : Prop :=
  forall i a r, p i = POk a r -> g a /\ written (w a) i r.

Lemma reads_shrinks {A} (p : nparser A) g w : reads p g w -> shrinks p.
Proof. intros H i a r E. apply H in E as [_ W]. eapply w_length; eauto. Qed.

(** ** Atoms *)
Lemma tag_w s i x r : tag s i = POk x r -> written [Lit s] i r.
Proof. intros H. apply tag_ok in H as ->. now apply w_one. Qed.

Lemma ms0_w i x r : multispace0 i = POk x r -> written [Sp0] i r.
Proof. intros H. apply take_while0_ok in H as (-> & F & _). now apply w_one. Qed.

Lemma ms1_w i x r : multispace1 i = POk x r -> written [Sp1] i r.
Proof. intros H. apply take_while1_ok in H as (-> & F & _ & N). now apply w_one. Qed.

Lemma blank_spaces a t : spaces a -> blank t -> blank (a ++ t).
Proof. induction 1; intros B; cbn; [exact B|]. constructor; auto. Qed.

Lemma blank_app a b : blank a -> blank b -> blank (a ++ b).
Proof.
  induction 1 as [|c t Hc _ IH|b' t Hb _ IH]; intros B; cbn; auto.
  - constructor; auto.
  - specialize (IH B). rewrite <- !app_assoc. cbn [app].
    apply bl_comment; assumption.
Qed.

Lemma take_until_ok s i a r : take_until s i = POk a r ->
  i = a ++ r /\ (exists r', r = chars s ++ r') /\
  (forall p q, a ++ chars s = p ++ chars s ++ q -> q = []).
Proof.
  revert a r. induction i as [|c i IH]; intros a r H; cbn in H.
  - destruct (strip (chars s) []) eqn:E; [|discriminate]. injection H as <- <-.
    apply strip_some in E. symmetry in E. apply app_eq_nil in E as [E1 E2].
    split; [reflexivity|]. rewrite E1. split; [now exists []|].
    intros p q E. destruct p; [|discriminate]. cbn in *. congruence.
  - destruct (strip (chars s) (c :: i)) eqn:E.
    + injection H as <- <-. apply strip_some in E. split; [reflexivity|]. split; [eauto|].
      intros p q F. cbn in F. apply (f_equal (@length _)) in F. rewrite !app_length in F.
      destruct q; [reflexivity|]. cbn in F. lia.
    + destruct (take_until s i) as [a' r'| |] eqn:T; try discriminate. injection H as <- <-.
      destruct (IH _ _ eq_refl) as (-> & [r2 ->] & N). split; [reflexivity|]. split; [eauto|].
      intros [|d p] q F.
      * exfalso. cbn [app] in F. assert (G : c :: a' ++ chars s ++ r2 = chars s ++ q ++ r2).
        { apply (f_equal (fun x => x ++ r2)) in F. cbn [app] in F. rewrite <- !app_assoc in F. exact F. }
        rewrite G, strip_app in E. discriminate.
      * cbn [app] in F. injection F as <- F. apply (N p q F).
Qed.

Lemma take_until_close a p q :
  (forall p q, a ++ chars "*/" = p ++ chars "*/" ++ q -> q = []) -> a = p ++ chars "*/" ++ q -> False.
Proof.
  intros N ->. specialize (N p (q ++ chars "*/")).
  rewrite <- !app_assoc in N. specialize (N eq_refl). destruct q; discriminate.
Qed.

Lemma comment_ok i x r : comment i = POk x r ->
  exists b s, i = chars "/*" ++ b ++ chars "*/" ++ s ++ r /\ ~ infix_of (chars "*/") b /\ spaces s /\
    ~ starts is_space r.
Proof.
  intros H. unfold comment in H. apply terminated_ok in H as (s & i2 & H & Hs).
  apply delimited_ok in H as (u1 & u2 & i3 & i4 & H1 & H2 & H3).
  apply tag_ok in H1 as ->. apply take_until_ok in H2 as (-> & _ & N).
  apply tag_ok in H3 as ->. apply take_while0_ok in Hs as (-> & F & S).
  exists x, s. split; [reflexivity|]. split; [|auto].
  intros (p & q & E). apply (take_until_close (a := x) (p := p) (q := q)); assumption.
Qed.

Lemma shrinks_comment : shrinks comment.
Proof.
  intros i x r H. apply comment_ok in H as (b & s & -> & _). rewrite !app_length. lia.
Qed.

Lemma many_comment l i r : many comment l i r -> exists t, i = t ++ r /\ blank t.
Proof.
  induction 1 as [i _|x l i i' r E _ _ (t & -> & B)]; [exists []; split; [reflexivity|constructor]|].
  apply comment_ok in E as (b & s & -> & Nb & Hs & _).
  exists (chars "/*" ++ b ++ chars "*/" ++ s ++ t). split.
  - now rewrite <- !app_assoc.
  - apply bl_comment; [exact Nb|]. now apply blank_spaces.
Qed.

Lemma comment0_w i x r : comment0 i = POk x r -> written [Bl] i r.
Proof.
  intros H. unfold comment0 in H. apply preceded_ok in H as (s & i1 & H1 & H2).
  apply take_while0_ok in H1 as (-> & F & _). apply opt_ok in H2 as [(l & -> & H2)|(_ & -> & _)].
  - apply many1_ok in H2; [|exact shrinks_comment]. destruct H2 as (a & l' & i' & -> & E & M).
    assert (M2 : many comment (a :: l') i1 r).
    { econstructor; eauto. apply comment_ok in E as (b & s2 & -> & _).
      rewrite !app_length. cbn. lia. }
    apply many_comment in M2 as (t & -> & B). rewrite app_assoc. apply w_one.
    now apply blank_spaces.
  - apply w_one. rewrite <- (app_nil_r s). apply blank_spaces; [exact F|constructor].
Qed.

Lemma shrinks_tag s : shrinks (tag s).
Proof. intros i x r H. apply tag_w in H. eapply w_length; eauto. Qed.
Lemma shrinks_ms0 : shrinks multispace0.
Proof. intros i x r H. apply ms0_w in H. eapply w_length; eauto. Qed.
Lemma shrinks_ms1 : shrinks multispace1.
Proof. intros i x r H. apply ms1_w in H. eapply w_length; eauto. Qed.
Lemma shrinks_comment0 : shrinks comment0.
Proof. intros i x r H. apply comment0_w in H. eapply w_length; eauto. Qed.
Lemma shrinks_tw1 f : shrinks (take_while1 f).
Proof. intros i x r H. apply take_while1_ok in H as (-> & _). rewrite app_length. lia. Qed.

(** ** Names *)
Lemma xdr_reserved_in x : xdr_reserved x = true <-> In x keywords.
Proof.
  unfold xdr_reserved. rewrite existsb_exists. change KEYWORDS_XDR with keywords. split.
  - intros (y & H & E). apply String.eqb_eq in E. congruence.
  - intros H. exists x. split; [exact H|apply String.eqb_refl].
Qed.

Lemma chars_str t : chars (str t) = t.
Proof. apply list_ascii_of_string_of_list_ascii. Qed.
Lemma str_chars s : str (chars s) = s.
Proof. apply string_of_list_ascii_of_string. Qed.
Lemma chars_inj a b : chars a = chars b -> a = b.
Proof. intros H. rewrite <- (str_chars a), <- (str_chars b). now f_equal. Qed.

Definition name_part : nparser text :=
  alt [alphanumeric1; pmap (tag "_") (fun _ => chars "_")].
Definition name_head : nparser text :=
  alt [alpha1; pmap (tag "_") (fun _ => chars "_")].

Lemma alpha_name c : is_alphanum c = true -> name_char c = true.
Proof. unfold name_char. now intros ->. Qed.

Lemma name_part_ok i x r : name_part i = POk x r ->
  i = x ++ r /\ x <> [] /\ Forall (fun c => name_char c = true) x.
Proof.
  intros H. apply por_ok in H as [H|[_ H]].
  - apply take_while1_ok in H as (-> & F & _ & N). repeat split; auto.
    eapply Forall_impl; [|exact F]. intros c. apply alpha_name.
  - apply por_ok in H as [H|[_ H]]; [|discriminate]. apply pmap_ok in H as (u & H & ->).
    apply tag_ok in H as ->. repeat split; [discriminate|]. repeat constructor.
Qed.

Lemma shrinks_name_part : shrinks name_part.
Proof. intros i x r H. apply name_part_ok in H as (-> & _). rewrite app_length. lia. Qed.

Lemma starts_dec f i : starts f i \/ ~ starts f i.
Proof. destruct i as [|c i]; cbn; [auto|]. destruct (f c); auto. Qed.

Lemma name_part_err i : name_part i = PErr -> ~ starts name_char i.
Proof.
  intros H S. destruct i as [|c i]; [exact S|]. cbn in S. unfold name_char in S.
  apply orb_true_iff in S as [S|S].
  - unfold name_part, alt in H. cbn [fold_right] in H.
    assert (E : exists x r, alphanumeric1 (c :: i) = POk x r).
    { unfold alphanumeric1, take_while1. cbn [span]. rewrite S. destruct (span is_alphanum i). eauto. }
    destruct E as (x & r & E). rewrite (por_run _ E) in H. discriminate.
  - apply Ascii.eqb_eq in S as ->. discriminate.
Qed.

Lemma many_name_part l i r : many name_part l i r ->
  exists t, i = t ++ r /\ Forall (fun c => name_char c = true) t /\ ~ starts name_char r.
Proof.
  induction 1 as [i E|x l i i' r E _ _ (t & -> & F & S)].
  - exists []. repeat split; auto. now apply name_part_err.
  - apply name_part_ok in E as (-> & _ & F1). exists (x ++ t). rewrite app_assoc.
    repeat split; auto. apply Forall_app. auto.
Qed.

Lemma name_head_ok i x r : name_head i = POk x r ->
  exists c t, i = c :: t ++ r /\ x = c :: t /\ name_start c = true /\
    Forall (fun c => name_char c = true) t.
Proof.
  intros H. apply por_ok in H as [H|[_ H]].
  - apply take_while1_ok in H as (-> & F & _ & N). destruct x as [|c t]; [congruence|].
    inversion F as [|? ? Hc Ht]; subst. exists c, t. repeat split.
    + unfold name_start. now rewrite Hc.
    + eapply Forall_impl; [|exact Ht]. intros d Hd. unfold name_char, is_alphanum. cbn in Hd. now rewrite Hd.
  - apply por_ok in H as [H|[_ H]]; [|discriminate]. apply pmap_ok in H as (u & H & ->).
    apply tag_ok in H as ->. exists "_"%char, []. repeat split. constructor.
Qed.

Lemma identifier_w : reads identifier good_name (fun x => [Name x]).
Proof.
  intros i x r H. unfold identifier in H. apply pmap_ok in H as (t & H & ->).
  apply verify_ok in H as [H V]. apply recognize_ok in H as (p & H & ->).
  apply pair_ok in H as (a & l & i' & H1 & H2 & ->).
  apply name_head_ok in H1 as (c & u & -> & -> & Hc & Hu).
  apply many0_ok in H2; [|exact shrinks_name_part].
  apply many_name_part in H2 as (v & -> & Hv & S).
  assert (E : firstn (length (c :: u ++ v ++ r) - length r) (c :: u ++ v ++ r) = c :: u ++ v).
  { rewrite app_assoc. change (c :: (u ++ v) ++ r) with ((c :: u ++ v) ++ r).
    rewrite app_length. replace (_ + _ - _)%nat with (length (c :: u ++ v) + 0)%nat by lia.
    rewrite firstn_app_2. cbn [firstn]. apply app_nil_r. }
  rewrite E in *. split.
  - unfold good_name. rewrite chars_str. split.
    + split; [exact Hc|]. apply Forall_app; auto.
    + rewrite <- xdr_reserved_in. destruct (xdr_reserved _); [discriminate|congruence].
  - rewrite app_assoc. change (c :: (u ++ v) ++ r) with ((c :: u ++ v) ++ r).
    apply w_one. split; [now rewrite chars_str|exact S].
Qed.

(** ** Numbers *)
Lemma many_digits f (l : list text) i r : many (take_while1 f) l i r ->
  exists t, i = t ++ r /\ Forall (fun c => f c = true) t /\ t = concat l.
Proof.
  induction 1 as [i _|x l i i' r E _ _ (t & -> & F & ->)]; [exists []; auto|].
  apply take_while1_ok in E as (-> & Fx & _). exists (x ++ concat l).
  rewrite app_assoc. repeat split; auto. apply Forall_app; auto.
Qed.

Lemma firstn_prefix (t r : text) : firstn (length (t ++ r) - length r) (t ++ r) = t.
Proof.
  rewrite app_length. replace (_ + _ - _)%nat with (length t + 0)%nat by lia.
  rewrite firstn_app_2. cbn. apply app_nil_r.
Qed.

Lemma recognize_digits f i t r : recognize (many1 (take_while1 f)) i = POk t r ->
  i = t ++ r /\ t <> [] /\ Forall (fun c => f c = true) t.
Proof.
  intros H. apply recognize_ok in H as (l & H & ->). apply many1_ok in H; [|apply shrinks_tw1].
  destruct H as (a & l' & i' & -> & E & M). apply take_while1_ok in E as (-> & F & _ & N).
  apply many_digits in M as (t & -> & Ft & _). rewrite app_assoc, firstn_prefix.
  repeat split.
  - intros E. apply app_eq_nil in E as [E _]. contradiction.
  - apply Forall_app; auto.
Qed.

Lemma nonzero_digit c : existsb (Ascii.eqb c) (chars "1234567879") = true ->
  is_digit c = true /\ c <> "0"%char.
Proof.
  intros H. apply existsb_exists in H as (d & I & E). apply Ascii.eqb_eq in E as <-.
  cbn in I. repeat destruct I as [<-|I]; try (split; [reflexivity|discriminate]). contradiction.
Qed.

Lemma constant_w : reads constant_p good_constant (fun c => [Lit (constant_text c)]).
Proof.
  intros i c r H. apply por_ok in H as [H|[_ H]].
  { apply pmap_ok in H as (t & H & ->). apply recognize_ok in H as (x & H & ->).
    apply pair_ok in H as (o & y & i1 & H1 & H2 & ->).
    apply pair_ok in H2 as (d & l & i2 & H2 & H3 & ->).
    destruct i1 as [|d' i3]; [discriminate|]. cbn [one_of] in H2.
    destruct (existsb (Ascii.eqb d') (chars "1234567879")) eqn:D; [|discriminate].
    injection H2 as <- <-. apply nonzero_digit in D as [D1 D2].
    apply many0_ok in H3; [|apply shrinks_tw1]. apply many_digits in H3 as (t & -> & Ft & _).
    assert (M : exists m, i = m ++ d' :: t ++ r /\ (m = [] \/ m = chars "-")).
    { apply opt_ok in H1 as [(u & _ & H1)|(_ & -> & _)].
      - apply tag_ok in H1 as ->. exists (chars "-"). auto.
      - exists []. auto. }
    destruct M as (m & -> & Hm).
    replace (m ++ d' :: t ++ r) with ((m ++ d' :: t) ++ r) by now rewrite <- app_assoc.
    rewrite firstn_prefix. split.
    - right. exists m, d', t. rewrite chars_str. auto.
    - apply w_one. cbn. now rewrite chars_str. }
  apply por_ok in H as [H|[_ H]].
  { apply pmap_ok in H as (t & H & ->). apply preceded_ok in H as (u & i1 & H1 & H).
    apply tag_ok in H1 as ->. apply recognize_digits in H as (-> & N & F). split.
    - cbn. rewrite chars_str. split; [|exact F]. intros E. apply N.
      rewrite <- (chars_str t), E. reflexivity.
    - rewrite app_assoc. apply w_one. cbn. now rewrite chars_str. }
  apply por_ok in H as [H|[_ H]].
  { apply pmap_ok in H as (t & H & ->). apply preceded_ok in H as (u & i1 & H1 & H).
    apply tag_ok in H1 as ->. apply recognize_digits in H as (-> & N & F). split.
    - cbn. rewrite chars_str. split; [|exact F]. intros E. apply N.
      rewrite <- (chars_str t), E. reflexivity.
    - rewrite app_assoc. apply w_one. cbn. now rewrite chars_str. }
  apply por_ok in H as [H|[_ H]]; [|discriminate].
  apply pmap_ok in H as (u & H & ->). split; [now left|]. eapply tag_w; eauto.
Qed.

Lemma lit_name x i r : written [Name x] i r -> written [Lit x] i r.
Proof.
  intros W. apply w_cons_inv in W as (t & i' & -> & [-> _] & W). apply w_nil_inv in W as ->.
  now apply w_one.
Qed.

Lemma value_w : reads value_p good_value w_value.
Proof.
  intros i v r H. apply por_ok in H as [H|[_ H]].
  - apply pmap_ok in H as (c & H & ->). now apply constant_w in H.
  - apply por_ok in H as [H|[_ H]]; [|discriminate]. apply pmap_ok in H as (x & H & ->).
    apply identifier_w in H as [G W]. split; [exact G|]. now apply lit_name.
Qed.

(** ** Inversion of parser runs *)
Ltac pinv1 H :=
  lazymatch type of H with
  | pmap _ _ _ = POk _ _ => apply pmap_ok in H; let a := fresh "a" in destruct H as (a & H & ->); pinv1 H
  | pair _ _ _ = POk _ _ =>
      apply pair_ok in H; let H2 := fresh "H" in let a := fresh "a" in let b := fresh "b" in let i := fresh "i" in
      destruct H as (a & b & i & H & H2 & ->); pinv1 H; pinv1 H2
  | preceded _ _ _ = POk _ _ =>
      apply preceded_ok in H; let H2 := fresh "H" in let a := fresh "a" in let i := fresh "i" in
      destruct H as (a & i & H & H2); pinv1 H; pinv1 H2
  | terminated _ _ _ = POk _ _ =>
      apply terminated_ok in H; let H2 := fresh "H" in let a := fresh "a" in let i := fresh "i" in
      destruct H as (a & i & H & H2); pinv1 H; pinv1 H2
  | delimited _ _ _ _ = POk _ _ =>
      apply delimited_ok in H; let H2 := fresh "H" in let H3 := fresh "H" in let a := fresh "a" in
      let c := fresh "c" in let i := fresh "i" in let j := fresh "j" in
      destruct H as (a & c & i & j & H & H2 & H3); pinv1 H; pinv1 H2; pinv1 H3
  | tag _ _ = POk _ _ => apply tag_w in H
  | multispace0 _ = POk _ _ => apply ms0_w in H
  | multispace1 _ = POk _ _ => apply ms1_w in H
  | comment0 _ = POk _ _ => apply comment0_w in H
  | identifier _ = POk _ _ => apply identifier_w in H; destruct H as [? H]
  | value_p _ = POk _ _ => apply value_w in H; destruct H as [? H]
  | _ => idtac
  end.

Ltac conj := repeat match goal with |- _ /\ _ => split end.

(** apply a soundness lemma to a parser run *)
Ltac use L G W := match goal with H : _ = POk _ _ |- _ => apply L in H; destruct H as [G W] end.

(** build [written l i r] from the hypotheses *)
Ltac wchain :=
  rewrite <- ?app_assoc; cbn [app];
  lazymatch goal with
  | |- written [] _ _ => constructor
  | |- written (?p :: ?l) ?i ?r =>
      eapply w_cons; [eassumption|]; wchain
  | |- written (?l ++ ?m) ?i ?r =>
      eapply w_app; [eassumption|]; wchain
  | |- written _ _ _ => eassumption
  end.

Lemma assign_w : reads assign_p good_assign w_assign.
Proof.
  intros i a r H. unfold assign_p in H. pinv1 H. split; [split; assumption|].
  unfold w_assign. cbn [as_name as_value]. wchain.
Qed.

Lemma constant_def_w i a r : constant_def i = POk a r ->
  good_assign a /\ written (w_definition (DefConst a)) i r.
Proof.
  intros H. unfold constant_def in H. pinv1 H. use assign_w G W.
  split; [exact G|]. unfold w_definition. wchain.
Qed.

Lemma comment_line_w i x r : comment_line i = POk x r -> written [Line] i r.
Proof.
  intros H. unfold comment_line in H. apply delimited_ok in H as (u & v & i1 & i2 & H1 & H2 & H3).
  apply tag_ok in H1 as ->. unfold not_line_ending in H2.
  destruct (span (fun c => negb (is_eol c)) i1) as [a b] eqn:S.
  apply span_ok in S as (-> & F & N).
  assert (F' : Forall (fun c => is_eol c = false) a).
  { eapply Forall_impl; [|exact F]. intros c. cbn. destruct (is_eol c); [discriminate|reflexivity]. }
  assert (E : x = a /\ i2 = b).
  { destruct b as [|c b]; [injection H2 as <- <-; auto|].
    destruct (Ascii.eqb c cr).
    - destruct b as [|d b]; [discriminate|]. destruct (Ascii.eqb d lf); [|discriminate].
      injection H2 as <- <-. auto.
    - injection H2 as <- <-. auto. }
  destruct E as [-> ->]. clear H2.
  destruct b as [|c b]; [discriminate|]. cbn in H3.
  destruct (Ascii.eqb_spec c lf) as [->|].
  - injection H3 as _ <-.
    replace (chars "%" ++ a ++ lf :: b) with ((chars "%" ++ a ++ [lf]) ++ b) by now rewrite <- !app_assoc.
    apply w_one. exists a. auto.
  - destruct (Ascii.eqb_spec c cr) as [->|]; [|discriminate].
    destruct b as [|d b]; [discriminate|]. destruct (Ascii.eqb_spec d lf) as [->|]; [|discriminate].
    injection H3 as _ <-.
    replace (chars "%" ++ a ++ cr :: lf :: b) with ((chars "%" ++ a ++ [cr; lf]) ++ b) by now rewrite <- !app_assoc.
    apply w_one. exists a. auto.
Qed.

Lemma w_bl_app i i' r : written [Bl] i i' -> written [Bl] i' r -> written [Bl] i r.
Proof.
  intros A B. apply w_cons_inv in A as (t & j & -> & Ht & W). apply w_nil_inv in W as ->.
  apply w_cons_inv in B as (t2 & j & -> & Ht2 & W). apply w_nil_inv in W as ->.
  rewrite app_assoc. apply w_one. now apply blank_app.
Qed.

(** pieces that end in blanks absorb more blanks *)
Lemma w_absorb p i i' r : written (p ++ [Bl]) i i' -> written [Bl] i' r -> written (p ++ [Bl]) i r.
Proof.
  intros A B. apply w_app_inv in A as (j & A & C). eapply w_app; [exact A|]. eapply w_bl_app; eauto.
Qed.

Lemma flat_ends {A} (f g : A -> list piece) x l : (forall x, f x = g x ++ [Bl]) ->
  exists p, flat_map f (x :: l) = p ++ [Bl].
Proof.
  intros E. revert x. induction l as [|y l IH]; intros x.
  - cbn [flat_map]. rewrite app_nil_r. eauto.
  - destruct (IH y) as [p F]. exists (f x ++ p).
    change (flat_map f (x :: y :: l)) with (f x ++ flat_map f (y :: l)). rewrite F.
    now rewrite app_assoc.
Qed.

Lemma w_flat_absorb {A} (f g : A -> list piece) x l i i' r : (forall x, f x = g x ++ [Bl]) ->
  written (flat_map f (x :: l)) i i' -> written [Bl] i' r -> written (flat_map f (x :: l)) i r.
Proof.
  intros E W B. destruct (@flat_ends _ f g x l E) as [p F]. rewrite F in *. eapply w_absorb; eauto.
Qed.

Lemma w_sp_app i i' r : written [Sp0] i i' -> written [Sp0] i' r -> written [Sp0] i r.
Proof.
  intros A B. apply w_cons_inv in A as (t & j & -> & Ht & W). apply w_nil_inv in W as ->.
  apply w_cons_inv in B as (t2 & j & -> & Ht2 & W). apply w_nil_inv in W as ->.
  rewrite app_assoc. apply w_one. now apply Forall_app.
Qed.

Lemma shrinks_pair {A B} (p : nparser A) (q : nparser B) : shrinks p -> shrinks q -> shrinks (pair p q).
Proof.
  intros S T i x r H. apply pair_ok in H as (a & b & i' & H1 & H2 & _). apply S in H1. apply T in H2. lia.
Qed.
Lemma shrinks_preceded {A B} (p : nparser A) (q : nparser B) : shrinks p -> shrinks q -> shrinks (preceded p q).
Proof.
  intros S T i x r H. apply preceded_ok in H as (a & i' & H1 & H2). apply S in H1. apply T in H2. lia.
Qed.
Lemma shrinks_terminated {A B} (p : nparser A) (q : nparser B) : shrinks p -> shrinks q -> shrinks (terminated p q).
Proof.
  intros S T i x r H. apply terminated_ok in H as (a & i' & H1 & H2). apply S in H1. apply T in H2. lia.
Qed.
Lemma shrinks_delimited {A B C} (p : nparser A) (q : nparser B) (s : nparser C) :
  shrinks p -> shrinks q -> shrinks s -> shrinks (delimited p q s).
Proof. intros. apply shrinks_preceded; auto. now apply shrinks_terminated. Qed.
Lemma shrinks_pmap {A B} (p : nparser A) (f : A -> B) : shrinks p -> shrinks (pmap p f).
Proof. intros S i x r H. apply pmap_ok in H as (a & H & _). eauto. Qed.
Lemma shrinks_opt {A} (p : nparser A) : shrinks p -> shrinks (opt p).
Proof. intros S i x r H. apply opt_ok in H as [(a & _ & H)|(_ & -> & _)]; eauto. Qed.
Lemma shrinks_many0 {A} (p : nparser A) : shrinks p -> shrinks (many0 p).
Proof. intros S i l r H. apply many0_ok in H; auto. induction H; lia. Qed.
Lemma shrinks_many1 {A} (p : nparser A) : shrinks p -> shrinks (many1 p).
Proof.
  intros S i l r H. apply many1_ok in H; auto. destruct H as (a & l' & i' & _ & H & M).
  apply S in H. induction M; lia.
Qed.
Lemma shrinks_value : shrinks value_p.
Proof. exact (reads_shrinks value_w). Qed.
Lemma shrinks_identifier : shrinks identifier.
Proof. exact (reads_shrinks identifier_w). Qed.
Lemma shrinks_assign : shrinks assign_p.
Proof. exact (reads_shrinks assign_w). Qed.

Ltac shr := repeat first
  [ assumption | apply shrinks_tag | apply shrinks_ms0 | apply shrinks_ms1 | apply shrinks_comment0
  | apply shrinks_value | apply shrinks_identifier | apply shrinks_assign
  | apply shrinks_pair | apply shrinks_preceded | apply shrinks_terminated | apply shrinks_delimited
  | apply shrinks_pmap | apply shrinks_opt | apply shrinks_many1 | apply shrinks_many0 ].

Lemma enum_body_w : reads enum_body (fun l => nonempty l /\ Forall good_assign l) w_enum_body.
Proof.
  intros i l r H. unfold enum_body in H.
  apply delimited_ok in H as (u & v & i1 & i2 & H1 & H2 & H3). pinv1 H1. pinv1 H3.
  unfold separated_list1 in H2. apply pbind_ok in H2 as (x & i4 & H2 & H5).
  apply pmap_ok in H5 as (l' & H5 & ->).
  apply many0_ok in H5; [|shr].
  assert (G : good_assign x /\ Forall good_assign l' /\ written (w_assigns (x :: l')) i1 i2).
  { apply assign_w in H2 as [Gx Wx].
    clear - H5 Gx Wx. revert x i1 Gx Wx.
    induction H5 as [i E|y l i i' r E L M IH]; intros x i1 Gx Wx.
    - split; [exact Gx|split; [constructor|exact Wx]].
    - pinv1 E. use assign_w Gy Wy. destruct (IH y _ Gy Wy) as (_ & Fl & Wl).
      split; [exact Gx|split; [now constructor|]]. change (w_assigns (x :: y :: l)) with (w_assign x ++ [Bl; Lit ","; Bl] ++ w_assigns (y :: l)).
      wchain. }
  destruct G as (Gx & Fl & W). split.
  - split; [discriminate|]. now constructor.
  - unfold w_enum_body. wchain.
Qed.

(** ** Types and declarations, given a sound type_specifier *)
Section Decl.
  Variable ts : nparser tyspec.
  Hypothesis ts_w : reads ts (fun t => good_type t /\ t <> TsVoid) w_type.

  Lemma ts_shrinks : shrinks ts.
  Proof. exact (reads_shrinks ts_w). Qed.

  Lemma opt_value_w i o r : opt value_p i = POk o r -> good_opt o /\ written (w_opt o) i r.
  Proof.
    intros H. apply opt_ok in H as [(v & -> & H)|(-> & -> & _)].
    - now apply value_w in H.
    - split; [exact I|constructor].
  Qed.

  (** the alternatives after "void" start with no "void" *)
  Lemma no_void t i i' : good_type t -> t <> TsVoid -> written (w_type t) i i' -> tag "void" i = PErr ->
    no_void_prefix t.
  Proof.
    intros G N W E. destruct t; try exact I; [|congruence].
    unfold no_void_prefix. destruct (strip (chars "void") (chars x)) eqn:S; [|reflexivity]. exfalso.
    apply strip_some in S. cbn [w_type] in W.
    apply w_cons_inv in W as (t & j & -> & [-> _] & _). rewrite S, <- app_assoc, tag_run in E. discriminate.
  Qed.

  Lemma declaration_w : reads (declaration ts) good_decl w_decl.
  Proof.
    intros i d r H. unfold declaration, alt in H. cbn [fold_right] in H.
    apply por_ok in H as [H|[V H]].
    { pinv1 H. split; [exact I|]. exact H. }
    assert (V' : tag "void" i = PErr).
    { unfold pmap, pbind in V. destruct (tag "void" i); [discriminate|reflexivity|discriminate]. }
    clear V.
    apply por_ok in H as [H|[_ H]].
    { pinv1 H. split; [split; assumption|]. cbn [w_decl]. wchain. }
    apply por_ok in H as [H|[_ H]].
    { pinv1 H. use opt_value_w Go Wo. split; [split; assumption|]. cbn [w_decl]. wchain. }
    apply por_ok in H as [H|[_ H]].
    { pinv1 H. use opt_value_w Go Wo. split; [split; assumption|]. cbn [w_decl]. wchain. }
    apply por_ok in H as [H|[_ H]].
    { pinv1 H. use ts_w GN W. destruct GN as [G N]. cbn [good_decl w_decl].
      split; [conj; eauto using no_void|]. wchain. }
    apply por_ok in H as [H|[_ H]].
    { pinv1 H. use ts_w GN W. destruct GN as [G N]. use opt_value_w Go Wo. cbn [good_decl w_decl].
      split; [conj; eauto using no_void|]. wchain. }
    apply por_ok in H as [H|[_ H]].
    { pinv1 H. use ts_w GN W. destruct GN as [G N]. cbn [good_decl w_decl].
      split; [conj; eauto using no_void|]. wchain. }
    apply por_ok in H as [H|[_ H]]; [|discriminate].
    pinv1 H. use ts_w GN W. destruct GN as [G N]. cbn [good_decl w_decl].
    split; [conj; eauto using no_void|]. wchain.
  Qed.

  Lemma shrinks_declaration : shrinks (declaration ts).
  Proof. exact (reads_shrinks declaration_w). Qed.

  Lemma struct_body_w : reads (struct_body ts) good_struct_body w_struct_body.
  Proof.
    intros i l r H. unfold struct_body in H.
    apply delimited_ok in H as (u & v & i1 & i2 & H1 & H2 & H3). pinv1 H1. pinv1 H3.
    apply many1_ok in H2; [|pose proof shrinks_declaration; shr].
    destruct H2 as (d & l' & i' & -> & E & M).
    set (w := fun d => w_decl d ++ [Bl; Lit ";"; Bl]).
    assert (D : forall d i i', terminated (declaration ts) (pair comment0 (pair (tag ";") comment0)) i = POk d i' ->
                good_decl d /\ written (w d) i i').
    { intros d0 j j' H5. pinv1 H5. use declaration_w Gd Wd. split; [assumption|]. unfold w. wchain. }
    assert (G : Forall good_decl l' /\ written (flat_map w l') i' i2).
    { clear - M D. induction M as [i E|y l i i' r E _ _ [F W]]; [split; constructor|].
      destruct (D _ _ _ E) as [Gy Wy]. split; [now constructor|]. cbn [flat_map]. wchain. }
    destruct G as [F W]. destruct (D _ _ _ E) as [Gd Wd]. split.
    - split; [discriminate|now constructor].
    - unfold w_struct_body. cbn [flat_map]. fold w.
      (* the last blanks of the declarations and those before the brace *)
      assert (A : written (flat_map w (d :: l')) i1 i2) by (cbn [flat_map]; wchain).
      assert (B : written (flat_map w (d :: l')) i1 i3).
      { eapply w_flat_absorb with (g := fun d => w_decl d ++ [Bl; Lit ";"]); [|exact A|exact H3].
        intros x. unfold w. now rewrite <- app_assoc. }
      cbn [app]. eapply w_cons; [eassumption|]. eapply w_cons; [eassumption|].
      eapply w_app; [exact B|]. wchain.
  Qed.

  Lemma case_label_w : reads case_label good_value (fun v => Bl :: w_label v).
  Proof.
    intros i v r H. unfold case_label in H. pinv1 H. split; [assumption|]. unfold w_label. wchain.
  Qed.

  Lemma many_labels l i r : many case_label l i r -> l <> [] ->
    Forall good_value l /\ written (Bl :: flat_map w_label l) i r.
  Proof.
    induction 1 as [i E|v l i i' r E _ M IH]; intros N; [congruence|].
    apply case_label_w in E as [G W]. destruct l as [|v2 l].
    - inversion M; subst. split; [now constructor|]. cbn [flat_map]. now rewrite app_nil_r.
    - destruct IH as [F W2]; [discriminate|]. split; [now constructor|].
      change (flat_map w_label (v :: v2 :: l)) with (w_label v ++ flat_map w_label (v2 :: l)).
      unfold w_label at 1 in W. unfold w_label at 1.
      rewrite app_comm_cons, !app_assoc in W. rewrite app_comm_cons, !app_assoc.
      apply w_cons_inv in W2 as (t & j & -> & Ht & W2).
      assert (Q : forall p, written (p ++ [Bl; Lit ":"; Bl]) i (t ++ j) -> written (p ++ [Bl; Lit ":"; Bl]) i j).
      { clear - Ht. intros p W. apply w_app_inv in W as (k & W1 & W2).
        apply w_cons_inv in W2 as (t1 & k1 & -> & P1 & W2).
        apply w_cons_inv in W2 as (t2 & k2 & -> & P2 & W2).
        eapply w_app; [exact W1|]. econstructor; [exact P1|]. econstructor; [exact P2|].
        eapply w_bl_app; [exact W2|]. now apply w_one. }
      eapply w_app; [|exact W2]. exact (Q ([Bl; Lit "case"; Bl] ++ w_value v) W).
  Qed.

  Lemma case_spec_w : reads (case_spec ts) good_case (fun s => Bl :: w_case s).
  Proof.
    intros i s r H. unfold case_spec in H. apply pmap_ok in H as (p & H & ->).
    apply pair_ok in H as (vs & d & i1 & H1 & H2 & ->).
    apply many1_ok in H1; [|exact (reads_shrinks case_label_w)].
    destruct H1 as (v & l & i' & -> & E & M).
    assert (M2 : many case_label (v :: l) i i1).
    { econstructor; eauto. apply case_label_w in E as [_ W].
      apply w_cons_inv in W as (t & j & -> & _ & W). unfold w_label in W.
      apply w_cons_inv in W as (t2 & j2 & -> & -> & W). apply w_length in W.
      rewrite !app_length. cbn. lia. }
    apply many_labels in M2 as [F W]; [|discriminate].
    pinv1 H2. use declaration_w G W2. split.
    - cbn [good_case]. conj; auto. discriminate.
    - cbn [w_case]. change (Bl :: flat_map w_label (v :: l) ++ w_decl d ++ [Bl; Lit ";"])
        with ((Bl :: flat_map w_label (v :: l)) ++ w_decl d ++ [Bl; Lit ";"]).
      eapply w_app; [exact W|]. wchain.
  Qed.

  Lemma shrinks_case_spec : shrinks (case_spec ts).
  Proof. exact (reads_shrinks case_spec_w). Qed.

  (** case specs with the blanks around them *)
  Lemma many_cases l i r : many (terminated (case_spec ts) comment0) l i r ->
    fold_right (fun s P => good_case s /\ P) True l /\
    forall j, written [Bl] j i -> written (Bl :: flat_map (fun s => w_case s ++ [Bl]) l) j r.
  Proof.
    induction 1 as [i E|s l i i' r E _ M [F IH]].
    - split; [exact I|]. intros j B. exact B.
    - pinv1 E. apply case_spec_w in E as [G W]. split; [split; assumption|].
      intros j B. specialize (IH _ H). cbn [flat_map].
      apply w_cons_inv in W as (t & k & -> & Ht & W).
      assert (B2 : written [Bl] j k) by (eapply w_bl_app; [exact B|now apply w_one]).
      apply w_cons_inv in IH as (t2 & k2 & -> & Ht2 & IH).
      rewrite <- app_assoc. eapply w_cons; [exact B2|]. eapply w_app; [exact W|].
      cbn [app]. econstructor; eassumption.
  Qed.

  Lemma union_body_w : reads (union_body ts) good_union_body w_union_body.
  Proof.
    intros i u r H. unfold union_body in H. apply pmap_ok in H as (p & H & ->).
    apply pair_ok in H as (c & q & i1 & H1 & H2 & ->).
    apply pair_ok in H2 as (specs & dflt & i2 & H2 & H3 & ->).
    pinv1 H1. use declaration_w Gc Wc.
    apply many1_ok in H2; [|pose proof shrinks_case_spec; shr].
    destruct H2 as (s & l & i' & -> & E & M).
    assert (M2 : many (terminated (case_spec ts) comment0) (s :: l) i1 i2).
    { econstructor; [exact E| |exact M]. clear - E ts_w. pinv1 E. apply case_spec_w in E as [_ W].
      apply w_cons_inv in W as (t & k & -> & Ht & W). apply w_length in H.
      destruct s as [vs d]. cbn [w_case] in W.
      apply w_app_inv in W as (k1 & W1 & W2). apply w_app_inv in W2 as (k2 & W2 & W3).
      apply w_cons_inv in W3 as (t3 & k3 & -> & Ht3 & W3). apply w_cons_inv in W3 as (t4 & k4 & -> & -> & W4).
      apply w_length in W1, W2, W4. rewrite !app_length in *. cbn in *. lia. }
    apply many_cases in M2 as [Fs Ws].
    assert (Ws2 : forall k, written [Bl] i2 k ->
              written (Bl :: flat_map (fun s => w_case s ++ [Bl]) (s :: l)) i9 k).
    { intros k B. specialize (Ws _ H10). apply w_cons_inv in Ws as (t & m & -> & Ht & Ws).
      econstructor; [exact Ht|].
      eapply w_flat_absorb with (g := w_case); [reflexivity|exact Ws|exact B]. }
    clear Ws E M. revert Fs Ws2. generalize (s :: l) (@nil_cons _ s l). intros sl NE Fs Ws.
    apply terminated_ok in H3 as (x & i10 & H3 & H11). pinv1 H11.
    apply opt_ok in H3 as [(d & -> & H3)|(-> & -> & _)].
    - apply delimited_ok in H3 as (y & z & k1 & k2 & P & D & E3). pinv1 P. pinv1 E3.
      apply declaration_w in D as [Gd Wd]. split.
      + cbn [good_union_body]. conj; auto. intros Z. congruence.
      + specialize (Ws _ P). cbn [w_union_body].
        rewrite <- ?app_assoc. cbn [app].
        repeat (eapply w_cons; [eassumption|]). eapply w_app; [exact Wc|].
        do 4 (eapply w_cons; [eassumption|]).
        change (Bl :: ?a ++ ?b) with ((Bl :: a) ++ b).
        eapply w_app; [exact Ws|]. cbn [app]. repeat (eapply w_cons; [eassumption|]).
        eapply w_app; [exact Wd|]. do 2 (eapply w_cons; [eassumption|]).
        repeat (eapply w_cons; [eassumption|]). constructor.
    - split.
      + cbn [good_union_body]. conj; auto. intros Z. congruence.
      + specialize (Ws _ H11). cbn [w_union_body].
        rewrite <- ?app_assoc. cbn [app].
        do 4 (eapply w_cons; [eassumption|]). eapply w_app; [exact Wc|].
        do 4 (eapply w_cons; [eassumption|]).
        change (Bl :: ?a ++ ?b) with ((Bl :: a) ++ b).
        eapply w_app; [exact Ws|]. eapply w_cons; [eassumption|]. constructor.
  Qed.

  Lemma word_ok s i x r : word_p s i = POk x r -> written [Word s] i r.
  Proof.
    intros H. apply terminated_ok in H as (w & i' & H1 & H2). apply tag_ok in H1 as ->.
    apply peek_space_ok in H2 as [-> S]. now apply w_one.
  Qed.

  Lemma unsigned_ok s i x r : unsigned_p s i = POk x r -> written [Lit "unsigned"; Sp1; Word s] i r.
  Proof.
    intros H. apply preceded_ok in H as (u & i1 & H1 & H). apply preceded_ok in H as (w & i2 & H2 & H).
    apply tag_w in H1. apply ms1_w in H2. apply word_ok in H. wchain.
  Qed.

  (** a failed built-in word is not there *)
  Lemma word_err s i : word_p s i = PErr -> forall r, i = chars s ++ r -> ~ starts is_space r.
  Proof.
    intros H r -> S. unfold word_p, terminated in H. rewrite (pbind_run _ (tag_run s r)) in H.
    destruct (peek_space S) as [w E]. rewrite (pbind_run _ E) in H. discriminate.
  Qed.

  Lemma unsigned_err s i : unsigned_p s i = PErr ->
    forall c w r, i = chars "unsigned" ++ w ++ c :: r -> is_space c = false -> w <> [] -> spaces w ->
      forall r', c :: r = chars s ++ r' -> ~ starts is_space r'.
  Proof.
    intros H c w r -> Hc Hw Sw r' E. unfold unsigned_p, preceded in H.
    rewrite (pbind_run _ (tag_run "unsigned" _)) in H.
    assert (N : ~ starts is_space (c :: r)) by (cbn; congruence).
    rewrite (pbind_run _ (take_while1_run Sw Hw N)) in H. eapply word_err; eauto.
  Qed.

  Lemma map_err {A B} (p : nparser A) (f : A -> B) i : pmap p f i = PErr -> p i = PErr.
  Proof. unfold pmap, pbind. destruct (p i); [discriminate|reflexivity|discriminate]. Qed.

  Lemma type_specifier_alts_w : reads (type_specifier_alts ts) (fun t => good_type t /\ t <> TsVoid) w_type.
  Proof.
    intros i t r H. unfold type_specifier_alts, alt in H. cbn [fold_right] in H.
    apply por_ok in H as [H|[U1 H]].
    { apply pmap_ok in H as (a & H & ->). split; [split; [exact I|discriminate]|].
      apply unsigned_ok in H.
      apply w_cons_inv in H as (t1 & j1 & -> & -> & H).
      apply w_cons_inv in H as (t2 & j2 & -> & [S2 N2] & H).
      apply w_cons_inv in H as (t3 & j3 & -> & [-> S3] & H). apply w_nil_inv in H as ->.
      replace (chars "unsigned" ++ t2 ++ chars "int" ++ r)
        with ((chars "unsigned" ++ t2 ++ chars "int") ++ r) by now rewrite <- !app_assoc.
      apply w_one. split; [exact S3|]. left. exists t2. auto. }
    apply por_ok in H as [H|[W1 H]].
    { apply pmap_ok in H as (a & H & ->). split; [split; [exact I|discriminate]|]. now apply word_ok in H. }
    apply por_ok in H as [H|[U2 H]].
    { apply pmap_ok in H as (a & H & ->). split; [split; [exact I|discriminate]|]. now apply unsigned_ok in H. }
    apply por_ok in H as [H|[W2 H]].
    { apply pmap_ok in H as (a & H & ->). split; [split; [exact I|discriminate]|]. now apply word_ok in H. }
    apply por_ok in H as [H|[U3 H]].
    { apply pmap_ok in H as (a & H & ->). split; [split; [exact I|discriminate]|]. now apply unsigned_ok in H. }
    apply por_ok in H as [H|[W3 H]].
    { apply pmap_ok in H as (a & H & ->). split; [split; [exact I|discriminate]|]. now apply word_ok in H. }
    apply por_ok in H as [H|[U4 H]].
    { apply pmap_ok in H as (a & H & ->). split; [split; [exact I|discriminate]|]. now apply unsigned_ok in H. }
    apply por_ok in H as [H|[W4 H]].
    { apply pmap_ok in H as (a & H & ->). split; [split; [exact I|discriminate]|]. now apply word_ok in H. }
    apply map_err in U1, U2, U3, U4, W3, W4.
    apply por_ok in H as [H|[_ H]].
    { apply pmap_ok in H as (a & H & ->). split; [split; [exact I|discriminate]|].
      apply terminated_ok in H as (w & i' & H1 & H2). apply tag_ok in H1 as ->.
      apply peek_space_ok in H2 as [-> S]. apply w_one. split; [exact S|]. right.
      split; [reflexivity|]. intros (u & x & r' & -> & Nu & Su & Ix & S').
      assert (D : exists c cs, chars x = c :: cs /\ is_space c = false).
      { cbn in Ix. destruct Ix as [<-|[<-|[<-|[<-|[]]]]]; eexists _, _; split; reflexivity. }
      destruct D as (c & cs & Ex & Hc). rewrite Ex in *. cbn [app] in *.
      assert (Q : unsigned_p x (chars "unsigned" ++ u ++ c :: cs ++ r') = PErr).
      { cbn in Ix. destruct Ix as [<-|[<-|[<-|[<-|[]]]]]; assumption. }
      eapply (unsigned_err Q); [reflexivity|exact Hc|exact Nu|exact Su| |exact S'].
      rewrite Ex. reflexivity. }
    do 4 (apply por_ok in H as [H|[_ H]];
      [apply pmap_ok in H as (a & H & ->); split; [split; [exact I|discriminate]|]; now apply word_ok in H|]).
    apply por_ok in H as [H|[_ H]].
    { unfold enum_type_spec in H. pinv1 H. apply enum_body_w in H0 as [G W].
      split; [split; [exact G|discriminate]|]. cbn [w_type]. wchain. }
    apply por_ok in H as [H|[_ H]].
    { unfold struct_type_spec in H. pinv1 H. apply struct_body_w in H0 as [[G1 G2] W].
      split; [split; [|discriminate]|].
      - cbn [good_type]. split; [exact G1|]. clear - G2. induction G2; [exact I|]. split; assumption.
      - cbn [w_type]. unfold w_struct_body in W. cbn [app] in W |- *.
        eapply w_cons; [eassumption|]. eapply w_cons; [eassumption|]. exact W. }
    apply por_ok in H as [H|[_ H]].
    { unfold union_type_spec in H. pinv1 H. apply union_body_w in H0 as [G W].
      split; [split; [exact G|discriminate]|]. cbn [w_type]. wchain. }
    apply por_ok in H as [H|[_ H]]; [|discriminate].
    pinv1 H. split; [split; [assumption|discriminate]|].
    cbn [w_type]. apply w_cons_inv in H as (t & j & -> & [-> N] & W). apply w_nil_inv in W as ->.
    apply w_one. cbn [piece_text]. conj; [reflexivity|exact N|]. intros Ix.
    destruct Ix as [<-|[<-|[]]]; [exact (word_err W3 eq_refl)|exact (word_err W4 eq_refl)].
  Qed.
End Decl.

Lemma type_specifier_w n : reads (type_specifier n) (fun t => good_type t /\ t <> TsVoid) w_type.
Proof.
  induction n as [|n IH]; [intros i t r H; discriminate|]. cbn [type_specifier].
  apply type_specifier_alts_w, IH.
Qed.

Section Spec.
  Variable n : nat.
  Let ts_w := @type_specifier_w n.

  Lemma type_def_w : reads (type_def n) good_typedef w_typedef.
  Proof.
    intros i t r H. unfold type_def, alt in H. cbn [fold_right] in H.
    apply por_ok in H as [H|[_ H]].
    { pinv1 H. use (declaration_w ts_w) G W. split; [exact G|]. cbn [w_typedef]. wchain. }
    apply por_ok in H as [H|[_ H]].
    { pinv1 H. use enum_body_w G W. split; [split; assumption|]. cbn [w_typedef]. wchain. }
    apply por_ok in H as [H|[_ H]].
    { pinv1 H. use (struct_body_w ts_w) G W. split; [split; assumption|]. cbn [w_typedef]. wchain. }
    apply por_ok in H as [H|[_ H]]; [|discriminate].
    pinv1 H. use (union_body_w ts_w) G W. split; [split; assumption|]. cbn [w_typedef]. wchain.
  Qed.

  Lemma proc_type_w : reads (proc_type n) good_type w_type.
  Proof.
    intros i t r H. apply por_ok in H as [H|[_ H]].
    - apply ts_w in H as [[G _] W]. auto.
    - apply por_ok in H as [H|[_ H]]; [|discriminate]. pinv1 H. split; [exact I|exact H].
  Qed.

  Lemma number_w : reads number_p good_value w_number.
  Proof.
    intros i v r H. unfold number_p in H. pinv1 H. split; [assumption|]. unfold w_number. wchain.
  Qed.

  Lemma procedure_w : reads (procedure_p n) good_procedure w_procedure.
  Proof.
    intros i p r H. unfold procedure_p in H. pinv1 H. use proc_type_w G1 W1. use proc_type_w G2 W2.
    use number_w G3 W3. split.
    - unfold good_procedure. cbn [pr_res pr_name pr_req pr_value]. conj; assumption.
    - unfold w_procedure. cbn [pr_res pr_name pr_req pr_value]. wchain.
  Qed.

  Lemma w_flat_absorb_sp {A} (f g : A -> list piece) x l i i' r : (forall x, f x = g x ++ [Sp0]) ->
    written (flat_map f (x :: l)) i i' -> written [Sp0] i' r -> written (flat_map f (x :: l)) i r.
  Proof.
    intros E W B. revert x i W. induction l as [|y l IH]; intros x i W.
    - cbn [flat_map] in *. rewrite app_nil_r in *. rewrite E in *.
      apply w_app_inv in W as (j & A1 & C). eapply w_app; [exact A1|]. eapply w_sp_app; eauto.
    - change (flat_map f (x :: y :: l)) with (f x ++ flat_map f (y :: l)) in *.
      apply w_app_inv in W as (j & A1 & C). eapply w_app; [exact A1|]. auto.
  Qed.

  Lemma many_flat {A} (p : nparser A) g w l i r : reads p g w -> many p l i r ->
    Forall g l /\ written (flat_map w l) i r.
  Proof.
    intros R. induction 1 as [i E|x l i i' r E _ _ [F W]]; [split; constructor|].
    apply R in E as [G W1]. split; [now constructor|]. cbn [flat_map]. eapply w_app; eauto.
  Qed.

  Lemma many1_flat {A} (p : nparser A) g w l i r : reads p g w -> many1 p i = POk l r ->
    l <> [] /\ Forall g l /\ written (flat_map w l) i r.
  Proof.
    intros R H. apply many1_ok in H; [|exact (reads_shrinks R)]. destruct H as (a & l' & i' & -> & E & M).
    apply (many_flat R) in M as [F W]. apply R in E as [G W1]. split; [discriminate|].
    split; [now constructor|]. cbn [flat_map]. eapply w_app; eauto.
  Qed.

  Lemma version_w : reads (version_p n) good_version w_version.
  Proof.
    intros i v r H. unfold version_p in H. pinv1 H. use number_w G3 W3.
    assert (R : reads (terminated (procedure_p n) multispace0) good_procedure (fun p => w_procedure p ++ [Sp0])).
    { clear - ts_w. intros i p r H. pinv1 H. use procedure_w G W. split; [exact G|]. wchain. }
    match goal with H : many1 _ _ = POk _ _ |- _ => apply (many1_flat R) in H; destruct H as (NE & F & W) end.
    split.
    - unfold good_version. cbn [vs_name vs_procs vs_value]. conj; assumption.
    - unfold w_version. cbn [vs_name vs_procs vs_value].
      match type of NE with ?l <> [] => destruct l as [|p0 l0]; [congruence|] end.
      match goal with Hs : written [Sp0] ?a _, W : written (flat_map _ _) _ ?a |- _ =>
        pose proof (@w_flat_absorb_sp _ _ w_procedure _ _ _ _ _ (fun _ => eq_refl) W Hs) as W' end.
      wchain.
  Qed.

  Lemma program_w : reads (program_p n) good_program w_program.
  Proof.
    intros i v r H. unfold program_p in H. pinv1 H. use number_w G3 W3.
    match goal with H : many1 _ _ = POk _ _ |- _ => apply (many1_flat version_w) in H; destruct H as (NE & F & W) end.
    split.
    - unfold good_program. cbn [pg_name pg_versions pg_value]. conj; assumption.
    - unfold w_program. cbn [pg_name pg_versions pg_value]. wchain.
  Qed.

  Lemma definition_w : reads (definition_p n) good_definition w_definition.
  Proof.
    intros i d r H. apply por_ok in H as [H|[_ H]].
    { pinv1 H. apply constant_def_w in H as [G W]. auto. }
    apply por_ok in H as [H|[_ H]].
    { pinv1 H. apply type_def_w in H as [G W]. auto. }
    apply por_ok in H as [H|[_ H]].
    { pinv1 H. apply program_w in H as [G W]. auto. }
    apply por_ok in H as [H|[_ H]]; [|discriminate].
    pinv1 H. apply comment_line_w in H. split; [exact I|exact H].
  Qed.

  Lemma shrinks_definition : shrinks (definition_p n).
  Proof. exact (reads_shrinks definition_w). Qed.

  Lemma specification_w ds i r : specification n i = POk ds r -> good_spec ds /\ written (w_spec ds) i r.
  Proof.
    intros H. unfold specification in H. apply many0_ok in H; [|pose proof shrinks_definition; shr].
    assert (G : good_spec ds /\ (ds = [] /\ i = r \/ ds <> [] /\ written (w_spec ds) i r)).
    { induction H as [i _|d ds i i' r E _ _ (F & IH)]; [split; [constructor|auto]|].
      apply delimited_ok in E as (u & v & i1 & i2 & E1 & E2 & E3). pinv1 E1. pinv1 E3.
      apply definition_w in E2 as [G W]. split; [now constructor|]. right. split; [discriminate|].
      destruct IH as [[-> ->]|[NE W2]].
      - cbn [w_spec flat_map app]. rewrite app_nil_r. wchain.
      - destruct ds as [|d2 ds]; [congruence|]. cbn [w_spec] in *.
        apply w_cons_inv in W2 as (t & j & -> & Ht & W2).
        assert (B : written [Bl] i2 j) by (eapply w_bl_app; [exact E3|now apply w_one]).
        change (flat_map (fun d => w_definition d ++ [Bl]) (d :: d2 :: ds))
          with ((w_definition d ++ [Bl]) ++ flat_map (fun d => w_definition d ++ [Bl]) (d2 :: ds)).
        rewrite <- app_assoc. eapply w_cons; [exact E1|]. eapply w_app; [exact W|].
        cbn [app]. eapply w_cons; [exact B|]. exact W2. }
    destruct G as [G [[-> ->]|[_ W]]]; split; auto. constructor.
  Qed.

  Lemma parse_sound i ds : parse n i = GOk ds -> denotes_text ds i.
  Proof.
    unfold parse. destruct (specification n i) as [l [|c r]| |] eqn:E; try discriminate.
    intros H. injection H as <-. now apply specification_w in E.
  Qed.
End Spec.
