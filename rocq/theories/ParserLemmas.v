(** Parser properties (C31-C39) assembled from soundness, termination and
    completeness. *)
From Verif Require Import Base Nom Ast ParserModel SpecGrammar SpecParse NomFacts
  ParseSound ParseTotal ParseComplete ConstProofs.
Set Implicit Arguments.
Unset Strict Implicit.
Local Open Scope string_scope.
Local Open Scope list_scope.

Lemma c31 t ds : denotes_text ds t -> greturns (fun n => parse n t) (GOk ds).
Proof.
  intro D. split; [discriminate|]. exists (S (length t)). intros n L. apply parse_complete; [assumption|lia].
Qed.

Lemma c32 t ds : greturns (fun n => parse n t) (GOk ds) -> denotes_text ds t.
Proof. intros [_ [N H]]. eapply parse_sound. apply (H N). lia. Qed.

Lemma parse_err n m i e : (length i < m)%nat -> parse n i = GErr e -> (length i < n)%nat -> parse m i = GErr e.
Proof.
  intros L E Ln. destruct (parse_total Ln) as [T|[ds T]]; [|congruence].
  rewrite E in T. injection T as ->.
  destruct (parse_total L) as [T|[ds T]]; [assumption|].
  apply parse_sound in T. rewrite (parse_complete T Ln) in E. discriminate.
Qed.

Lemma parse_returns n i : (length i < n)%nat -> greturns (fun n => parse n i) (parse n i).
Proof.
  intro L. destruct (parse_total L) as [T|[ds T]]; rewrite T.
  - split; [discriminate|]. exists (S (length i)). intros m Lm. apply parse_err with n; [lia|assumption..].
  - apply c31. eapply parse_sound. exact T.
Qed.

Lemma c33 t : (exists ds, greturns (fun n => parse n t) (GOk ds)) \/
              greturns (fun n => parse n t) (GErr GTrailingData).
Proof.
  assert (L : (length t < S (length t))%nat) by lia.
  pose proof (parse_returns L) as R. destruct (parse_total L) as [T|[ds T]]; rewrite T in R; [now right|].
  left. now exists ds.
Qed.

Lemma c33_unique t r1 r2 : greturns (fun n => parse n t) r1 -> greturns (fun n => parse n t) r2 -> r1 = r2.
Proof.
  intros [_ [N H]] [_ [M K]]. rewrite <- (H (N + M)%nat), <- (K (N + M)%nat); [reflexivity|lia..].
Qed.

Lemma c34 t ds : greturns (fun n => parse n t) (GOk ds) -> good_spec ds.
Proof. intro H. apply c32 in H. apply H. Qed.

(** ** C35 *)
Lemma definition_nil n : definition_p n [] = PErr.
Proof. reflexivity. Qed.

Lemma blank_rejected t n : blank t -> t <> [] -> parse n t = GErr GTrailingData.
Proof.
  intros B N. assert (W : written [Bl] t []).
  { rewrite <- (app_nil_r t). now apply w_one. }
  apply comment0_e in W as [o W]; [|exact I].
  unfold parse, specification.
  assert (M : many (delimited comment0 (definition_p n) comment0) [] t t).
  { constructor. eapply delimited_err2; [eapply eats_run; exact W|apply definition_nil]. }
  rewrite (many0_run M). now destruct t.
Qed.

Lemma c35_all t : blank t -> t <> [] -> greturns (fun n => parse n t) (GErr GTrailingData).
Proof.
  intros B N. split; [discriminate|]. exists 0%nat. intros n _. now apply blank_rejected.
Qed.

Lemma c35_refuted : exists t, blank t /\ ~ greturns (fun n => parse n t) (GOk []).
Proof.
  exists (chars " "). assert (B : blank (chars " ")) by (apply bl_space; [reflexivity|constructor]).
  split; [exact B|]. intro H. assert (R := c35_all B ltac:(discriminate)).
  pose proof (c33_unique H R). discriminate.
Qed.

(** ** Extending a text after a semicolon *)
Definition semi : ascii := ";"%char.

Lemma w_semi l i r : written (l ++ [Lit ";"]) i r -> exists u, i = u ++ semi :: r.
Proof.
  intro W. apply w_app_inv in W as (j & W1 & W2).
  apply w_suffix in W1 as [u ->]. inversion W2 as [|? ? t k ? P W3]; subst.
  apply w_nil_inv in W3. subst. cbn in P. subst. now exists u.
Qed.

Lemma starts_ext f u a x : starts f ((u ++ semi :: a) ++ x) <-> starts f (u ++ semi :: a).
Proof. destruct u; reflexivity. Qed.

Lemma spaces_no_semi w : spaces w -> ~ In semi w.
Proof. intros S H. unfold spaces in S. rewrite Forall_forall in S. apply S in H. discriminate. Qed.

Lemma split_before_semi p q u a : ~ In semi p -> p ++ q = u ++ semi :: a -> 
  exists q', u = p ++ q' /\ q = q' ++ semi :: a.
Proof.
  revert u. induction p as [|c p IH]; intros u N E.
  - exists u. now split.
  - destruct u as [|d u]; cbn in E; injection E as -> E.
    + exfalso. apply N. now left.
    + destruct (IH u) as (q' & -> & ->); [|exact E|].
      * intro H. apply N. now right.
      * now exists q'.
Qed.

Lemma int_words_no_semi x : In x int_words -> ~ In semi (chars x).
Proof.
  cbn. intros [<-|[<-|[<-|[<-|[]]]]] H; cbn in H; repeat destruct H as [H|H]; try discriminate; exact H.
Qed.

Lemma piece_ext p t u a x : piece_text p t (u ++ semi :: a) -> piece_text p t ((u ++ semi :: a) ++ x).
Proof.
  destruct p; cbn [piece_text]; rewrite ?starts_ext; try exact (fun H => H).
  intros [S [H|[-> H]]]; (split; [exact S|]); [now left|right]. split; [reflexivity|].
  intros (w & y & r' & E & Nw & Sw & Iy & Sr). apply H. clear H.
  rewrite <- app_assoc in E. rewrite <- app_comm_cons in E.
  rewrite app_assoc in E. symmetry in E. apply split_before_semi in E as (q' & -> & ->).
  - exists w, y, (q' ++ semi :: a). rewrite <- !app_assoc. repeat split; trivial.
    destruct q'; exact Sr.
  - intro K. apply in_app_or in K as [K|K]; [eapply spaces_no_semi|eapply int_words_no_semi]; eassumption.
Qed.

Lemma w_ext l i r x : written (l ++ [Lit ";"]) i r -> written (l ++ [Lit ";"]) (i ++ x) (r ++ x).
Proof.
  revert i r. induction l as [|p l IH]; intros i r W.
  - cbn in *. inversion W as [|? ? t k ? P W2]; subst. apply w_nil_inv in W2. subst.
    rewrite <- app_assoc. apply w_one. exact P.
  - cbn [app] in *. inversion W as [|? ? t k ? P W2]; subst. rewrite <- app_assoc.
    apply wr_cons; [|now apply IH]. destruct (w_semi W2) as [u E]. rewrite E in *. now apply piece_ext.
Qed.

Lemma w_ends (a b : list piece) : exists l, a ++ b ++ [Bl; Lit ";"] = l ++ [Lit ";"].
Proof. exists (a ++ b ++ [Bl]). now rewrite <- !app_assoc. Qed.

Lemma w_definition_ext d i r x : written (w_definition d) i r -> written (w_definition d) (i ++ x) (r ++ x).
Proof.
  intro W. assert (H : d = DefLine \/ exists l, w_definition d = l ++ [Lit ";"]).
  { destruct d as [t|a| |p]; [right| right| now left|right].
    - destruct t; apply w_ends.
    - cbn [w_definition]. exists ([Lit "const"; Sp1] ++ w_assign a ++ [Bl]). now rewrite <- !app_assoc.
    - cbn [w_definition]. unfold w_program, w_number.
      eexists ([Lit "program"; Sp1; Name (pg_name p); Sp0; Lit "{"; Sp0] ++
        flat_map w_version (pg_versions p) ++ [Sp0; Lit "}"; Sp0] ++ [Lit "="; Sp0] ++ w_value (pg_value p) ++ [Sp0]).
      now rewrite <- !app_assoc. }
  destruct H as [->|[l E]].
  - cbn in *. inversion W as [|? ? t k ? P W2]; subst. apply w_nil_inv in W2. subst.
    rewrite <- app_assoc. apply w_one. exact P.
  - rewrite E in *. now apply w_ext.
Qed.

Lemma w_bl_ext i r x : written [Bl] i r -> written [Bl] (i ++ x) (r ++ x).
Proof.
  intro W. inversion W as [|? ? t k ? P W2]; subst. apply w_nil_inv in W2. subst.
  rewrite <- app_assoc. apply w_one. exact P.
Qed.

Lemma w_defs_ext ds i r x : written (flat_map (fun d => w_definition d ++ [Bl]) ds) i r ->
  written (flat_map (fun d => w_definition d ++ [Bl]) ds) (i ++ x) (r ++ x).
Proof.
  revert i. induction ds as [|d ds IH]; intros i W; cbn [flat_map] in *.
  - apply w_nil_inv in W. subst. constructor.
  - apply w_app_inv in W as (j & W1 & W2). apply w_app_inv in W1 as (k & W1 & W3).
    apply IH in W2. apply (@w_bl_ext _ _ x) in W3. apply (@w_definition_ext _ _ _ x) in W1.
    eapply w_app; [eapply w_app|]; eassumption.
Qed.

Lemma w_bl_blank t r : blank t -> written [Bl] (t ++ r) r.
Proof. apply (@w_one Bl). Qed.

Lemma concat_denotes a b c ds es : denotes_text ds a -> denotes_text es c -> blank b ->
  ds <> [] \/ es <> [] \/ b = [] -> denotes_text (ds ++ es) (a ++ b ++ c).
Proof.
  intros [G1 W1] [G2 W2] B N. split; [now apply Forall_app|].
  assert (Wb : written [Bl] (b ++ c) c) by now apply w_bl_blank.
  assert (We : es <> [] -> exists j, written [Bl] (b ++ c) j /\
                written (flat_map (fun d => w_definition d ++ [Bl]) es) j []).
  { intro Ne. destruct es as [|e es]; [easy|]. cbn [w_spec] in W2.
    apply w_cons_inv in W2 as (t & j & -> & P & W2). exists j. split; [|exact W2].
    eapply w_bl_app; [exact Wb|]. now apply (@w_one Bl). }
  destruct ds as [|d ds].
  - apply w_nil_inv in W1. subst a. cbn [app].
    destruct es as [|e es].
    + apply w_nil_inv in W2. subst c. destruct N as [N|[N| ->]]; [easy..|]. constructor.
    + destruct We as (j & We1 & We2); [easy|]. cbn [w_spec]. eapply w_cons; eassumption.
  - cbn [w_spec app] in *. apply w_cons_inv in W1 as (t & j & -> & P & W1).
    rewrite <- app_assoc. apply wr_cons; [exact P|].
    change (d :: ds ++ es) with ((d :: ds) ++ es). rewrite flat_map_app.
    apply (@w_defs_ext _ _ _ (b ++ c)) in W1. cbn [app] in W1.
    destruct es as [|e es].
    + rewrite (app_nil_r (flat_map _ (d :: ds)) : _ ++ flat_map _ [] = _). apply w_nil_inv in W2. subst c.
      eapply (@w_flat_absorb _ _ w_definition); [reflexivity|exact W1|exact Wb].
    + destruct We as (k & We1 & We2); [easy|]. eapply w_app; [|exact We2].
      eapply (@w_flat_absorb _ _ w_definition); [reflexivity|exact W1|exact We1].
Qed.

Lemma c_concat a b c ds es : greturns (fun n => parse n a) (GOk ds) -> greturns (fun n => parse n c) (GOk es) ->
  blank b -> ds <> [] \/ es <> [] \/ b = [] -> greturns (fun n => parse n (a ++ b ++ c)) (GOk (ds ++ es)).
Proof.
  intros H K B N. apply c31. apply concat_denotes; trivial; now apply c32.
Qed.

Lemma c_unambiguous t ds es : denotes_text ds t -> denotes_text es t -> ds = es.
Proof.
  intros H K. apply c31 in H. apply c31 in K. pose proof (c33_unique H K) as E. now injection E.
Qed.

Lemma c39 ds i1 i2 : good_spec ds -> written (w_spec ds) i1 [] -> written (w_spec ds) i2 [] ->
  exists r, greturns (fun n => parse n i1) r /\ greturns (fun n => parse n i2) r.
Proof.
  intros G W1 W2. exists (GOk ds). split; apply c31; now split.
Qed.

(** ** C36 *)
Lemma w_bl0 l i r : written l i r -> written (Bl :: l) i r.
Proof. intro W. apply (@wr_cons Bl l []); [constructor|exact W]. Qed.
Lemma w_sp00 l i r : written l i r -> written (Sp0 :: l) i r.
Proof. intro W. apply (@wr_cons Sp0 l []); [constructor|exact W]. Qed.
Lemma w_lit s r : written [Lit s] (chars s ++ r) r.
Proof. apply w_one. reflexivity. Qed.
Lemma w_sp1 w r : spaces w -> w <> [] -> written [Sp1] (w ++ r) r.
Proof. intros. apply w_one. now split. Qed.
Lemma w_sp0 w r : spaces w -> written [Sp0] (w ++ r) r.
Proof. intros. now apply w_one. Qed.
Lemma w_name x r : ~ starts name_char r -> written [Name x] (chars x ++ r) r.
Proof. intros. now apply w_one. Qed.

Lemma typedef_var t u w x : good_type t -> no_void_prefix t -> good_name x ->
  spaces w -> w <> [] ->
  written (w_type t) (u ++ w ++ chars x ++ chars ";") (w ++ chars x ++ chars ";") ->
  denotes_text [DefType (TdDecl (DVariable t x))] (typedef_text (u ++ w ++ chars x)).
Proof.
  intros G V Gx S N W. split; [constructor; [cbn; tauto|constructor]|].
  cbn [w_spec flat_map w_definition w_typedef w_decl]. unfold typedef_text.
  apply w_bl0. rewrite app_nil_r, <- !app_assoc.
  change (chars "typedef ") with (chars "typedef" ++ [" "%char]). rewrite <- !app_assoc.
  eapply w_cons; [apply w_lit|]. eapply w_cons; [apply w_sp1; [repeat constructor|discriminate]|].
  eapply w_app; [exact W|].
  eapply w_cons; [now apply w_sp1|]. eapply w_cons; [apply w_name; cbn; discriminate|].
  apply w_bl0.
  eapply w_cons; [change (chars ";") with (chars ";" ++ []); apply w_lit|].
  apply w_bl0. constructor.
Qed.

Lemma typedef_opt t u w x : good_type t -> no_void_prefix t -> good_name x ->
  spaces w ->
  written (w_type t) (u ++ w ++ chars "*" ++ chars x ++ chars ";") (w ++ chars "*" ++ chars x ++ chars ";") ->
  denotes_text [DefType (TdDecl (DOption t x))] (typedef_text (u ++ w ++ chars "*" ++ chars x)).
Proof.
  intros G V Gx S W. split; [constructor; [cbn; tauto|constructor]|].
  cbn [w_spec flat_map w_definition w_typedef w_decl]. unfold typedef_text.
  apply w_bl0. rewrite app_nil_r, <- !app_assoc.
  change (chars "typedef ") with (chars "typedef" ++ [" "%char]). rewrite <- !app_assoc.
  eapply w_cons; [apply w_lit|]. eapply w_cons; [apply w_sp1; [repeat constructor|discriminate]|].
  eapply w_app; [exact W|].
  eapply w_cons; [now apply w_sp0|]. eapply w_cons; [apply w_lit|].
  apply w_sp00.
  eapply w_cons; [apply w_name; cbn; discriminate|].
  apply w_bl0.
  eapply w_cons; [change (chars ";") with (chars ";" ++ []); apply w_lit|].
  apply w_bl0. constructor.
Qed.

Lemma spaces_start w r : spaces w -> w <> [] -> starts is_space (w ++ r).
Proof. intros S N. destruct w; [easy|]. now inversion S. Qed.

Lemma c36_partial T w x : good_name T -> good_name x -> strip (chars "void") (chars T) = None ->
  ~ In T soft_words -> spaces w -> w <> [] ->
  greturns (fun n => parse n (typedef_text (chars T ++ w ++ chars x)))
           (GOk [DefType (TdDecl (DVariable (TsIdent T) x))]).
Proof.
  intros G Gx V F S N. apply c31. apply typedef_var; trivial.
  cbn [w_type]. apply w_one. split; [reflexivity|].
  pose proof (spaces_start (chars x ++ chars ";") S N) as St.
  split; [|easy]. exact (space_start_nonname St).
Qed.

Lemma c36_refuted : exists T, good_name T /\
  forall x, ~ greturns (fun n => parse n (typedef_text (chars T ++ chars " x")))
             (GOk [DefType (TdDecl (DVariable (TsIdent T) x))]).
Proof.
  exists "voidptr_t". split.
  - split; [cbn; split; [reflexivity|repeat constructor]|]. cbn. intuition discriminate.
  - intros x H. apply c34 in H. inversion H as [|? ? G _]; subst. cbn in G. destruct G as (_ & G & _).
    discriminate.
Qed.

(** ** C37 *)
Lemma space_before p c q w s : is_space c = true -> Forall (fun c => is_space c = false) s ->
  p ++ c :: q = w ++ s -> exists v, w = p ++ c :: v.
Proof.
  intros C F. revert w. induction p as [|d p IH]; intros w E.
  - destruct w as [|e w]; cbn in E.
    + subst s. inversion F; congruence.
    + injection E as <- _. now exists w.
  - destruct w as [|e w]; cbn in E.
    + subst s. inversion F as [|? ? _ F']; subst. apply Forall_app in F' as [_ F']. inversion F'; congruence.
    + injection E as <- E. destruct (IH w E) as [v ->]. now exists v.
Qed.

Lemma word_needs_space w s : spaces w -> Forall (fun c => is_space c = false) s ->
  ~ exists w' x r', w ++ s = w' ++ chars x ++ r' /\ w' <> [] /\ spaces w' /\ In x int_words /\ starts is_space r'.
Proof.
  intros S F (w' & x & r' & E & _ & _ & Ix & Sr). destruct r' as [|c r']; [easy|].
  symmetry in E. rewrite app_assoc in E. apply space_before in E as [v ->]; trivial.
  unfold spaces in S. rewrite !Forall_app in S. destruct S as [[_ S] _].
  cbn in Ix. destruct Ix as [<-|[<-|[<-|[<-|[]]]]]; inversion S; discriminate.
Qed.

Lemma builtin_w t u w s : builtin t u -> spaces w -> w <> [] -> Forall (fun c => is_space c = false) s ->
  written (w_type t) (u ++ w ++ s) (w ++ s).
Proof.
  intros B S N F. pose proof (spaces_start s S N) as St.
  destruct B; cbn [w_type w_unsigned]; try (apply w_one; split; [reflexivity|exact St]).
  - apply w_one. split; [exact St|]. right. split; [reflexivity|]. now apply word_needs_space.
  - apply w_one. split; [exact St|]. left. now exists w0.
  - rewrite <- !app_assoc. eapply w_cons; [apply w_lit|]. eapply w_cons; [now apply w_sp1|].
    apply w_one. split; [reflexivity|exact St].
Qed.

Lemma name_no_space x : good_name x -> Forall (fun c => is_space c = false) (chars x).
Proof.
  intro G. eapply Forall_impl; [|exact (good_name_chars G)]. exact name_not_space.
Qed.

Lemma builtin_good t u : builtin t u -> good_type t /\ no_void_prefix t.
Proof. now destruct 1. Qed.

Lemma c37_partial t u w x : builtin t u -> spaces w -> w <> [] -> good_name x ->
  greturns (fun n => parse n (typedef_text (u ++ w ++ chars x))) (GOk [DefType (TdDecl (DVariable t x))]) /\
  greturns (fun n => parse n (typedef_text (u ++ w ++ chars "*" ++ chars x))) (GOk [DefType (TdDecl (DOption t x))]).
Proof.
  intros B S N G. destruct (builtin_good B) as [G1 G2]. pose proof (name_no_space G) as F.
  split; apply c31; [apply typedef_var|apply typedef_opt]; trivial; apply builtin_w; trivial;
    rewrite ?Forall_app; repeat split; trivial; repeat constructor.
Qed.

Lemma c37_refuted :
  greturns (fun n => parse n (typedef_text (chars "int*p"))) (GErr GTrailingData) /\
  greturns (fun n => parse n (typedef_text (chars "int *p"))) (GOk [DefType (TdDecl (DOption (TsInt true) "p"))]).
Proof.
  split.
  - apply (@parse_returns 40). cbn. lia.
  - apply (@parse_returns 40). cbn. lia.
Qed.

(** ** C61 *)
Definition two_versions (gap : text) : text :=
  chars "program P { version V1 { void A(void) = 0; } = 1;" ++ gap ++ chars "version V2 { void B(void) = 0; } = 2; } = 99;".
Definition two_versions_ast : list definition :=
  [DefProgram (Program "P"
    [Version "V1" [Procedure TsVoid "A" TsVoid (VConst (Decimal "0"))] (VConst (Decimal "1"));
     Version "V2" [Procedure TsVoid "B" TsVoid (VConst (Decimal "0"))] (VConst (Decimal "2"))]
    (VConst (Decimal "99")))].
Lemma two_versions_adjacent : greturns (fun n => parse n (two_versions [])) (GOk two_versions_ast).
Proof. apply (@parse_returns 150). cbn. lia. Qed.
Lemma two_versions_spaced : greturns (fun n => parse n (two_versions (chars " "))) (GErr GTrailingData).
Proof. apply (@parse_returns 150). cbn. lia. Qed.

(** ** C38 in a text *)
Lemma const_text x c : good_name x -> good_constant c ->
  greturns (fun n => parse n (chars "const " ++ chars x ++ chars " = " ++ chars (constant_text c) ++ chars ";"))
    (GOk [DefConst (Assign x (VConst c))]).
Proof.
  intros Gx Gc. apply c31. split; [constructor; [now split|constructor]|].
  cbn [w_spec flat_map w_definition]. unfold w_assign. cbn [as_name as_value w_value value_text].
  change (chars "const ") with (chars "const" ++ [" "%char]).
  change (chars " = ") with ([" "%char] ++ chars "=" ++ [" "%char]). rewrite <- !app_assoc.
  assert (B : blank [" "%char]) by (apply bl_space; [reflexivity|constructor]).
  apply w_bl0. cbn [app].
  eapply w_cons; [apply (w_lit "const")|].
  eapply w_cons; [apply (@w_sp1 [" "%char]); [repeat constructor|discriminate]|].
  eapply w_cons; [apply w_name; cbn; discriminate|].
  eapply w_cons; [apply (@w_bl_blank [" "%char]); exact B|].
  eapply w_cons; [apply (w_lit "=")|].
  eapply w_cons; [apply (@w_bl_blank [" "%char]); exact B|].
  eapply w_cons; [apply w_lit|].
  apply w_bl0.
  eapply w_cons; [change (chars ";") with (chars ";" ++ []); apply w_lit|].
  apply w_bl0. constructor.
Qed.

Lemma c39_padding b1 b2 t ds : blank b1 -> blank b2 -> ds <> [] ->
  greturns (fun n => parse n t) (GOk ds) -> greturns (fun n => parse n (b1 ++ t ++ b2)) (GOk ds).
Proof.
  intros B1 B2 N H.
  assert (E : greturns (fun n => parse n []) (GOk [])) by (apply c31; split; constructor).
  assert (K : greturns (fun n => parse n (t ++ b2)) (GOk ds)).
  { rewrite <- (app_nil_r b2), <- (app_nil_r ds). apply c_concat; auto. }
  apply (@c_concat [] b1 (t ++ b2) [] ds); auto.
Qed.

Lemma c35_empty : greturns (fun n => parse n []) (GOk []).
Proof. apply c31. split; constructor. Qed.

Lemma c38 k c : good_constant c -> exists z, stands_for c z /\ (forall w, stands_for c w -> w = z) /\
  (fits k z -> constant_value k c = GOk z) /\ (~ fits k z -> constant_value k c = GErr GParse).
Proof.
  intro G. destruct (stands_total G) as [z S]. exists z. split; [exact S|]. split; [|split].
  - intros w T. eapply stands_fun; eassumption.
  - now apply constant_fits.
  - now apply constant_overflows.
Qed.

Lemma c61 : greturns (fun n => parse n (two_versions [])) (GOk two_versions_ast) /\
  ~ exists ds, greturns (fun n => parse n (two_versions (chars " "))) (GOk ds).
Proof.
  split; [exact two_versions_adjacent|]. intros [ds H].
  pose proof (c33_unique H two_versions_spaced). discriminate.
Qed.

Lemma c61_partial p t : good_program p -> written (w_program p) t [] ->
  greturns (fun n => parse n t) (GOk [DefProgram p]).
Proof.
  intros G W. apply c31. split; [now constructor|]. cbn [w_spec flat_map w_definition].
  apply w_bl0. rewrite app_nil_r. eapply w_app; [exact W|]. apply w_bl0. constructor.
Qed.
