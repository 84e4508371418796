(** A generated file that compiles has names that can be used, and arms that
    a comma can follow. *)
From Verif Require Import Base RustTypes SpecCase Nom Ast ParserModel RustAst GenModel SpecGen SpecXdl GenSem WireBase
  SpecGrammar SpecParse GenFacts SpecWire EmitRun EmitReject GenTotal RustText SpecRust SpecSyntax TextLex TextParse TextItems TextGen TextFile.
Set Implicit Arguments.
Unset Strict Implicit.
Local Open Scope string_scope.
Local Open Scope list_scope.

Notation Ok := (Forall bare_ok).

Lemma const_bare x : const_name_ok x -> bare_ok x.
Proof.
  intros [U S]. split; [|exact U]. intros I.
  assert (A : forallb (fun y => existsb (fun c => existsb (Ascii.eqb c) smalls) (chars y)) rust_words = true) by reflexivity.
  rewrite forallb_forall in A. specialize (A x I). apply existsb_exists in A as (c & C & B).
  apply existsb_exists in B as (c' & C' & B). apply Ascii.eqb_eq in B. subst c'. exact (S c C C').
Qed.
Lemma position_member x l i : position x l = Some i -> In x l.
Proof.
  revert i. induction l as [|y l IH]; intros i; cbn; [easy|]. destruct (String.eqb_spec x y) as [->|]; [now left|].
  destruct (position x l) as [j|]; [|easy]. intros _. right. now apply (IH j).
Qed.

Section File.
  Variable f : file.
  Variable E : env.
  Hypothesis FE : file_env f = Some E.
  Hypothesis CO : compiles f.
  Hypothesis MD : file_made f.

  Lemma sem i : In i (fi_types f) -> exists T, item_sem f i = Some T.
  Proof. intros H. destruct (omap_in_l FE H) as (p & _ & S). destruct (item_sem f i) as [T|]; [now exists T|discriminate]. Qed.
  Lemma item_bare i : In i (fi_types f) -> bare_ok (item_name i).
  Proof.
    intros H. destruct CO as (_ & C & _). destruct MD as (_ & _ & M). rewrite Forall_forall in C, M. split; [apply C, H|apply M, H].
  Qed.
  Lemma found_bare x i : find_item f x = Some i -> bare_ok x /\ In i (fi_types f).
  Proof. intros H. apply find_some in H as [H N]. apply String.eqb_eq in N. subst x. split; [now apply item_bare|exact H]. Qed.
  Lemma enum_bare x e : find_enum f x = Some e -> bare_ok x /\ In (IEnum e) (fi_types f).
  Proof.
    unfold find_enum. destruct (find_item f x) as [i|] eqn:F; [|easy]. destruct i; try easy. intros [= <-]. now apply found_bare in F.
  Qed.
  Lemma const_in_bare c : In c (fi_consts f) -> bare_ok (co_name c).
  Proof. intros H. destruct CO as (_ & _ & _ & _ & _ & C). rewrite Forall_forall in C. apply const_bare. now apply C. Qed.
  Lemma const_bound n x r : const_sem f n x = Some r -> bare_ok x.
  Proof.
    destruct n; [discriminate|]. cbn [const_sem]. destruct (find _ _) as [c|] eqn:F; [|discriminate]. intros _.
    apply find_some in F as [F N]. apply String.eqb_eq in N. subst x. now apply const_in_bare.
  Qed.
  Lemma len_words len cast k : array_len f len cast = Some k -> Ok (token_words len).
  Proof.
    unfold array_len. destruct len as [z|x]; [constructor|]. intros H. constructor; [|constructor].
    apply obind_some in H as (z & H & _). apply guard_some in H as [_ H]. unfold const_of_name in H.
    destruct (const_sem f _ x) as [r|] eqn:C; [|discriminate]. exact (const_bound C).
  Qed.
  Lemma ty_words_ok t : forall T, ty_sem f t = Some T -> Ok (type_words t).
  Proof.
    induction t as [s k| | | | |x|t IH len cast|t IH| |t IH|t IH|]; intros T; cbn [ty_sem type_words]; try (intros; constructor).
    - destruct (find_item f x) as [i|] eqn:F; [|discriminate]. now apply found_bare in F.
    - constructor.
    - intros H. apply obind_some in H as (u & U & H). apply obind_some in H as (k & K & _). apply Forall_app. split; [exact (IH _ U)|exact (len_words K)].
    - intros H. destruct (ty_sem f t) as [u|]; [|discriminate]. exact (IH _ eq_refl).
    - intros H. destruct (ty_sem f t) as [u|]; [|discriminate]. exact (IH _ eq_refl).
    - intros H. destruct (ty_sem f t) as [u|]; [|discriminate]. exact (IH _ eq_refl).
  Qed.
  Lemma field_words_ok a t T : field_sem f a t = Some T -> Ok (type_words t).
  Proof.
    destruct a; cbn [field_sem].
    - apply ty_words_ok.
    - destruct t as [| | | | | |[[] []| | | | | | | | | | |] len cast| | | | |]; try discriminate. intros H.
      destruct (array_len f len cast) as [k|] eqn:K; [|discriminate]. cbn [type_words app]. exact (len_words K).
    - destruct t as [| | | | | | |[[] []| | | | | | | | | | |]| | | |]; try discriminate. constructor.
    - destruct t; try discriminate. intros H. apply obind_some in H as (e & H & _). constructor; [|constructor]. now apply enum_bare in H.
  Qed.

  Lemma const_words c : In c (fi_consts f) -> Ok (co_name c :: token_words (co_value c)).
  Proof.
    intros H. constructor; [now apply const_in_bare|]. destruct CO as (_ & _ & _ & _ & N & C). rewrite Forall_forall in C.
    destruct (C c H) as (_ & w & z & S). unfold const_of_name in S. cbn [const_sem] in S.
    destruct (find _ _) as [c'|] eqn:F; [|discriminate]. apply find_some in F as [F X]. apply String.eqb_eq in X.
    assert (Q : c' = c).
    { clear -N F H X. induction (fi_consts f) as [|a l IH]; [easy|]. inversion N as [|? ? N1 N2]; subst.
      destruct F as [->|F], H as [->|H]; auto.
      - exfalso. apply N1. rewrite X. now apply in_map.
      - exfalso. apply N1. rewrite <- X. now apply in_map. }
    subst c'. destruct (co_value c) as [k|y]; [constructor|]. constructor; [|constructor].
    destruct (const_sem f _ y) as [r|] eqn:CS; [|discriminate]. exact (const_bound CS).
  Qed.

  Lemma enum_names_bare e : In (IEnum e) (fi_types f) -> Ok (enum_names e).
  Proof.
    intros H. destruct CO as (_ & _ & C & _). rewrite Forall_forall in C. specialize (C _ H). destruct C as (_ & C & _).
    eapply Forall_impl; [|exact C]. intros y Hy. apply Hy.
  Qed.
  Lemma variants_bare u v : In (IUnion u) (fi_types f) -> In v (un_variants u) -> Ok (token_words (va_name v)).
  Proof.
    intros H Hv. destruct CO as (_ & _ & C & _). rewrite Forall_forall in C. specialize (C _ H). destruct C as (_ & C).
    destruct (va_name v) as [z|x] eqn:Ev; [constructor|]. constructor; [|constructor]. rewrite Forall_forall in C. apply C.
    apply in_flat_map. exists v. split; [exact Hv|]. rewrite Ev. now left.
  Qed.

  Lemma forall_in {A} (P : A -> Prop) l k : Forall (fun a => In a k) l -> Forall P k -> Forall P l.
  Proof. intros H K. rewrite Forall_forall in *. auto. Qed.
  Lemma ok_flat {A} (g : A -> list string) l : (forall a, In a l -> Ok (g a)) -> Ok (flat_map g l).
  Proof. induction l as [|a l IH]; intros H; [constructor|]. cbn. apply Forall_app. split; [apply H; now left|]. apply IH. intros. apply H. now right. Qed.
  Lemma ok_option {A} (g : A -> list string) a : if_some (fun b => Ok (g b)) a -> Ok (option_words g a).
  Proof. destruct a; [easy|constructor]. Qed.

  (** ** enum *)
  Lemma indexer_parts vs ix T : indexer_sem vs ix = Some T ->
    ix_names ix <> [] /\ ix_index ix <> [].
  Proof.
    unfold indexer_sem. intros H. apply obind_some in H as (nm & N & H). apply obind_some in H as (idx & I & H).
    apply obind_some in H as (oth & _ & H). apply guard_some in H as [G _].
    apply andb_prop in G as [G _]. apply andb_prop in G as [G1 G2].
    split; intros Q; rewrite Q in *; cbn in N, I; [injection N as <-|injection I as <-]; discriminate.
  Qed.
  Lemma enum_legible_ok e : In (IEnum e) (fi_types f) -> Ok (item_words (IEnum e)) /\ item_legible (IEnum e).
  Proof.
    intros H. pose proof (enum_names_bare H) as B. pose proof (item_bare H) as BN. cbn [item_name] in BN. destruct (sem H) as [T S].
    destruct MD as (_ & M & _). rewrite Forall_forall in M. specialize (M _ H). cbn [made] in M. destruct M as (_ & _ & D & R & TF & I).
    assert (W : forall v, In v (map TokId (enum_names e)) -> Ok (token_words v) /\ is_word v).
    { intros v Hv. apply in_map_iff in Hv as (y & <- & Hy). split; [|exact Logic.I]. constructor; [|constructor].
      rewrite Forall_forall in B. now apply B. }
    split; [|split].
    - cbn [item_words]. constructor; [exact BN|]. apply Forall_app. split; [exact B|]. constructor; [rewrite Forall_forall in B; now apply B|].
      apply Forall_app. split; [|apply Forall_app; split].
      + apply ok_option. eapply some_mono; [exact R|]. intros l L. eapply forall_in; [|exact B]. apply forall_map.
        eapply Forall_impl; [|exact L]. intros p Hp. apply Hp.
      + apply ok_option. eapply some_mono; [exact TF|]. intros l [_ L]. eapply forall_in; [|exact B]. apply forall_map.
        eapply Forall_impl; [|exact L]. intros p Hp. apply Hp.
      + apply ok_option. eapply some_mono; [exact I|]. intros ix (I1 & I2 & I3). rewrite Forall_forall in I1, I3. unfold indexer_words.
        apply Forall_app. split; [|apply Forall_app; split].
        * apply ok_flat. intros p Hp. now apply W, I1.
        * apply ok_option. eapply some_mono; [exact I2|]. intros v Hv. now apply W.
        * apply ok_flat. intros p Hp. now apply W, I3.
    - eapply some_mono; [exact TF|]. now intros l [L _].
    - destruct (en_indexer e) as [ix|] eqn:EI; [|exact Logic.I]. cbn in I. destruct I as (I1 & I2 & I3). cbn [item_sem] in S. unfold enum_sem in S.
      apply guard_some in S as [_ S]. rewrite EI in S.
      destruct (en_derive e); try discriminate. destruct (en_as_ref e); [discriminate|]. apply indexer_parts in S as [S1 S2].
      split; [|now split]. unfold indexer_tokens. rewrite Forall_forall in I1, I3. apply Forall_app. split; [|apply Forall_app; split].
      + apply forall_map. apply Forall_forall. intros p Hp. now apply W, I1.
      + destruct (ix_other ix); constructor; [|constructor]. now apply W.
      + apply forall_map. apply Forall_forall. intros p Hp. now apply W, I3.
  Qed.

  (** ** struct *)
  Lemma struct_legible_ok s : In (IStruct s) (fi_types f) -> Ok (item_words (IStruct s)).
  Proof.
    intros H. destruct (sem H) as [T S]. cbn [item_words]. constructor; [exact (item_bare H)|]. apply ok_flat. intros fd Hf.
    cbn [item_sem] in S. unfold struct_sem in S. destruct (omap _ _) as [ts|] eqn:O; [|discriminate].
    destruct (omap_in_l O Hf) as (b & _ & Hb). destruct (field_sem f _ _) as [t|] eqn:F; [|discriminate]. exact (field_words_ok F).
  Qed.

  (** ** union *)
  Lemma omap_all {A B} (g : A -> option B) l bs : omap g l = Some bs -> forall a, In a l -> exists b, g a = Some b.
  Proof. intros H a Ha. destruct (omap_in_l H Ha) as (b & _ & Hb). now exists b. Qed.
  Lemma types_words ts k : omap (ty_sem f) ts = Some k -> Ok (flat_map type_words ts).
  Proof. intros H. apply ok_flat. intros t Ht. destruct (omap_all H Ht) as [T S]. exact (ty_words_ok S). Qed.
  Lemma id_word v x : token_id v = Some x -> is_word v.
  Proof. now destruct v. Qed.
  Lemma rty_words a b : rty_eqb a b = true -> type_words a = type_words b.
  Proof.
    revert b. induction a as [s k| | | | |x|t IH len cast|t IH| |t IH|t IH|]; intros [s' k'| | | | |x'|t' len' cast'|t'| |t'|t'|]; cbn; try discriminate; auto.
    - intros Q. apply String.eqb_eq in Q. congruence.
    - intros Q. apply andb_prop in Q as [Q Q3]. apply andb_prop in Q as [Q1 Q2]. rewrite (IH _ Q1). f_equal.
      destruct len, len'; try discriminate; cbn; auto. apply String.eqb_eq in Q3. congruence.
  Qed.

  (** every variant has a name and typed fields *)
  Lemma variants_sem u T : item_sem f (IUnion u) = Some T ->
    forall v, In v (un_variants u) -> is_word (va_name v) /\ Ok (flat_map type_words (va_tys v)).
  Proof.
    intros S v Hv. cbn [item_sem] in S. unfold union_sem in S. apply guard_some in S as [_ S].
    destruct (un_derive u), (un_indexer u) as [ix|], (un_union u) as [ui|]; try discriminate.
    - destruct (omap _ _) as [vs|] eqn:O; [|discriminate]. destruct (omap_all O Hv) as [b B]. unfold serde_variant_sem in B.
      apply obind_some in B as (x & X & B). split; [exact (id_word X)|].
      destruct (va_tys v) as [|t [|]]; [constructor| |discriminate]. destruct (field_sem f _ t) as [t'|] eqn:F; [|discriminate].
      cbn [flat_map]. rewrite app_nil_r. exact (field_words_ok F).
    - apply obind_some in S as (vs & O & _). destruct (omap_all O Hv) as [b B]. unfold indexer_variant_sem in B.
      apply obind_some in B as (x & X & B). split; [exact (id_word X)|]. destruct (va_attr v); try discriminate.
      destruct (omap (ty_sem f) (va_tys v)) as [ts|] eqn:Ts; [|discriminate]. exact (types_words Ts).
    - unfold union_impl_sem in S. apply obind_some in S as (disc & _ & S). apply obind_some in S as (dt & DT & S). apply obind_some in S as (vs & O & _).
      destruct (omap_all O Hv) as [b B]. unfold union_variant_sem in B. apply obind_some in B as (x & X & B). split; [exact (id_word X)|].
      destruct (va_attr v); try discriminate. destruct (va_tys v) as [|t ts]; [discriminate|]. apply guard_some in B as [Q B].
      destruct (omap (ty_sem f) ts) as [ts'|] eqn:Ts; [|discriminate]. cbn [flat_map]. apply Forall_app. split; [|exact (types_words Ts)].
      rewrite (rty_words Q). exact (ty_words_ok DT).
  Qed.

  Lemma pat_words_ok disc p v : pat_sem f disc p = Some v -> Ok (pat_words p).
  Proof.
    destruct p as [b|z|t x]; cbn; try (intros; constructor).
    - destruct disc; try discriminate. apply guard_some in H as [_ H]. apply obind_some in H as (e & F & _). now apply enum_bare in F.
    - destruct disc; try discriminate. apply guard_some in H as [_ H]. apply obind_some in H as (e & F & H). apply enum_bare in F as [_ F].
      destruct (position x (enum_names e)) as [i|] eqn:P; [|discriminate]. apply position_member in P.
      pose proof (enum_names_bare F) as B. rewrite Forall_forall in B. constructor; [now apply B|constructor].
  Qed.

  Lemma union_legible_ok u : In (IUnion u) (fi_types f) -> Ok (item_words (IUnion u)) /\ item_legible (IUnion u).
  Proof.
    intros H. pose proof (item_bare H) as BN. cbn [item_name] in BN. destruct (sem H) as [T S]. pose proof (variants_sem S) as V.
    destruct MD as (_ & M & _). rewrite Forall_forall in M. specialize (M _ H). cbn [made] in M. destruct M as (_ & _ & D & I & U).
    assert (W : forall v, In v (va_names (un_variants u)) -> Ok (token_words v) /\ is_word v).
    { intros v Hv. apply in_map_iff in Hv as (x & <- & Hx). split; [now apply (variants_bare H)|now apply V]. }
    cbn [item_sem] in S. unfold union_sem in S. apply guard_some in S as [_ S].
    split; [|split; [|split; [|split]]].
    - cbn [item_words]. constructor; [exact BN|]. apply Forall_app. split; [|apply Forall_app; split; [|apply Forall_app; split]].
      + apply ok_flat. intros v Hv. apply Forall_app. split; [now apply (variants_bare H)|now apply V].
      + now apply W.
      + apply ok_option. eapply some_mono; [exact I|]. intros ix (I1 & I2 & I3). unfold names_arms, index_arms in *. rewrite Forall_forall in I1, I3.
        unfold indexer_words. apply Forall_app. split; [|apply Forall_app; split].
        * apply ok_flat. intros p Hp. now apply W, I1.
        * apply ok_option. eapply some_mono; [exact I2|]. intros v Hv. now apply W.
        * apply ok_flat. intros p Hp. now apply W, I3.
      + apply ok_option. destruct (un_union u) as [ui|]; [|exact Logic.I]. cbn in U |- *. destruct U as (U1 & U2 & U3). unfold value_arms in U2. rewrite Forall_forall in U2.
        destruct (un_derive u), (un_indexer u); try discriminate.
        unfold union_impl_sem in S. apply obind_some in S as (disc & Di & S). apply obind_some in S as (dt & DT & S). apply obind_some in S as (vs & _ & S).
        apply obind_some in S as (nm & N & _). unfold union_words. rewrite Di. cbn [option_words]. apply Forall_app. split; [exact (ty_words_ok DT)|].
        apply Forall_app. split.
        * apply ok_flat. intros p Hp. apply Forall_app. split; [|now apply W, U2]. destruct (omap_all N Hp) as [b B]. apply obind_some in B as (v & B & _). exact (pat_words_ok B).
        * apply ok_option. eapply some_mono; [exact U3|]. intros a A. apply ok_option. eapply some_mono; [exact A|]. intros v Hv. now apply W.
    - apply Forall_forall. intros v Hv. now apply V.
    - now apply W.
    - destruct (un_indexer u) as [ix|]; [|exact Logic.I]. cbn in I |- *. destruct I as (I1 & I2 & I3). unfold names_arms, index_arms in *. rewrite Forall_forall in I1, I3.
      destruct (un_derive u), (un_union u); try discriminate. apply obind_some in S as (vs & _ & S). apply indexer_parts in S as [S1 S2].
      split; [|now split]. unfold indexer_tokens. apply Forall_app. split; [|apply Forall_app; split].
      + apply forall_map. apply Forall_forall. intros p Hp. now apply W, I1.
      + destruct (ix_other ix); constructor; [|constructor]. now apply W.
      + apply forall_map. apply Forall_forall. intros p Hp. now apply W, I3.
    - destruct (un_union u) as [ui|]; [|exact Logic.I]. cbn in U |- *. destruct U as (U1 & U2 & U3). unfold value_arms in U2. rewrite Forall_forall in U2.
      destruct (un_derive u), (un_indexer u); try discriminate.
      unfold union_impl_sem in S. apply obind_some in S as (disc & Di & S). apply obind_some in S as (dt & _ & S). apply obind_some in S as (vs & _ & S).
      apply obind_some in S as (nm & N & S). apply obind_some in S as (oth & _ & S). apply guard_some in S as [G _]. repeat split.
      + now rewrite Di.
      + apply forall_map. apply Forall_forall. intros p Hp. now apply W, U2.
      + intros Q. rewrite Q in N. cbn in N. injection N as <-. discriminate.
      + destruct (ui_other ui) as [[v|]|]; try exact Logic.I. now apply W.
  Qed.

  Theorem file_legible : legible f.
  Proof.
    split; [|split].
    - unfold file_words. apply Forall_app. split; apply ok_flat; [apply const_words|]. intros [x t|e|s|u] Hi.
      + constructor; [exact (item_bare Hi)|]. destruct (sem Hi) as [T S]. exact (ty_words_ok S).
      + now apply enum_legible_ok.
      + now apply struct_legible_ok.
      + now apply union_legible_ok.
    - apply Forall_forall. intros r Hr. apply in_flat_map in Hr as (i & Hi & Hr). destruct i as [x t|e|s|u]; try easy.
      apply in_map_iff in Hr as (fd & <- & Hf). destruct CO as (_ & _ & C & _). rewrite Forall_forall in C. specialize (C _ Hi). destruct C as (_ & C).
      rewrite Forall_forall in C. specialize (C fd Hf). destruct (fd_name fd); [exact C|exact Logic.I].
    - apply Forall_forall. intros [x t|e|s|u] Hi; try exact Logic.I.
      + now apply enum_legible_ok.
      + now apply union_legible_ok.
  Qed.
End File.

Theorem generated_trees cfg ds f : greturns (fun n => gen_code n cfg ds) (GOk f) ->
  read_trees (printed f) = Some (flat_map trees_of (file_calls f)).
Proof. intros G. destruct (greturns_run G) as (n & H & _). apply printed_trees. exact (okp_ok (gen_made n cfg ds) H). Qed.
Theorem generated_read cfg ds f E : generated cfg ds f E -> compiles f -> read_rust (printed f) = Some (items_of f).
Proof.
  intros [G FE] CO. destruct (greturns_run G) as (n & H & _). pose proof (okp_ok (gen_made n cfg ds) H) as M.
  apply made_read; [exact M|]. exact (file_legible FE CO M).
Qed.
Theorem accepted_read fl checks src ds : let cfg := main_config fl checks in
  greturns (fun n => parse n src) (GOk ds) -> definitions_ok cfg ds ->
  exists f, greturns (fun n => rpcgen n fl checks src) (GOk f) /\ read_rust (printed f) = Some (items_of f).
Proof.
  intros cfg P D. destruct (accepted P D) as (f & E & G & C & _). exists f. split; [|exact (generated_read G C)].
  destruct G as [[_ [N G]] _]. destruct P as [_ [N' P]]. split; [discriminate|]. exists (Nat.max N N'). intros n L.
  unfold rpcgen. rewrite P by lia. cbn [gbind]. apply G. lia.
Qed.
Theorem printed_lexes fl checks src f : greturns (fun n => rpcgen n fl checks src) (GOk f) ->
  exists ts, read_trees (printed f) = Some ts.
Proof.
  intros G. destruct (greturns_run G) as (n & H & _). unfold rpcgen in H. apply gbind_ok in H as (ds & _ & H).
  exists (flat_map trees_of (file_calls f)). apply printed_trees. exact (okp_ok (gen_made n _ ds) H).
Qed.
