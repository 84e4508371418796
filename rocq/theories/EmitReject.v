(** Files that the Rust compiler rejects. *)
From Coq Require Import Relation_Operators Permutation.
From Verif Require Import Base RustTypes Nom NomFacts Keyword Ast ParserModel SpecGrammar SpecParse ParseSound ParserLemmas
  ConstProofs CaseModel SpecCase CaseProofs RustAst GenModel SpecGen SpecItems GenFacts GenTotal GenPanic GenLemmas
  SpecXdl GenSem SpecWire WireBase WireEnum WireTok WireBack WireEnums WireMain WireLemmas SpecEmit EmitBase EmitProofs EmitFlags EmitItems EmitNames EmitRun EmitSize SpecReject.
Set Implicit Arguments.
Unset Strict Implicit.
Local Open Scope list_scope.

(** ** Rejected files are not accepted by the model of the compiler *)
Section Sound.
  Variable f : file.
  Variable E : env.
  Hypothesis FE : file_env f = Some E.
  Hypothesis CO : compiles f.

  Lemma name_of_eq i : name_of i = item_name i.
  Proof. now destruct i. Qed.
  Lemma has_sem i : In i (fi_types f) -> exists T, item_sem f i = Some T.
  Proof.
    intros H. destruct (omap_in_l FE H) as (p & _ & S). destruct (item_sem f i) as [T|]; [now exists T|discriminate].
  Qed.

  Definition typed (t : rty) : Prop := exists T, ty_sem f t = Some T.
  Definition typed_at (t : rty) : Prop := exists a T, field_sem f a t = Some T.
  Lemma typed_within t u : within t u -> typed u -> typed t.
  Proof.
    induction 1 as [|u len cast _ IH|u _ IH|u _ IH|u _ IH]; intros [T H]; [now exists T| | | |]; apply IH; cbn in H.
    - apply obind_some in H as (T' & H & _). now exists T'.
    - destruct (ty_sem f u) as [T'|] eqn:S; [now exists T'|discriminate].
    - destruct (ty_sem f u) as [T'|] eqn:S; [now exists T'|discriminate].
    - destruct (ty_sem f u) as [T'|] eqn:S; [now exists T'|discriminate].
  Qed.
  Lemma array_typed t len cast z : array_len f len cast = Some z -> typed (YArray (YInt false W8) len cast) /\ t = t :> rty.
  Proof. intros H. split; [|reflexivity]. eexists. cbn. rewrite H. reflexivity. Qed.
  Lemma field_typed a t T : field_sem f a t = Some T -> typed t.
  Proof.
    destruct a; cbn.
    - intros H. now exists T.
    - destruct t as [| | | | | |t len cast| | | | |]; try discriminate. destruct t as [[] []| | | | | | | | | | |]; try discriminate.
      destruct (array_len f len cast) as [z|] eqn:A; [|discriminate]. intros _. exact (proj1 (array_typed YBool A)).
    - destruct t as [| | | | | | |t| | | |]; try discriminate. destruct t as [[] []| | | | | | | | | | |]; try discriminate. intros _. eexists. reflexivity.
    - destruct t as [| | | | |s| | | | | |]; try discriminate. unfold find_enum. destruct (find_item f s) as [i|] eqn:FI; [|discriminate].
      intros _. eexists. cbn. rewrite FI. reflexivity.
  Qed.
  Lemma rty_eqb_refl t u : rty_eqb t u = true -> typed u -> typed t.
  Proof.
    intros H K. assert (t = u) as ->; [|exact K]. clear K. revert u H. induction t as [s w| | | | |x|t IH len cast|t IH| |t IH|t IH|]; intros [s' w'| | | | |x'|t' len' cast'|t'| |t'|t'|] H; cbn in H; try discriminate; try reflexivity.
    - apply andb_prop in H as [H1 H2]. apply Bool.eqb_prop in H1 as ->. destruct w, w'; try discriminate; reflexivity.
    - now apply String.eqb_eq in H as ->.
    - apply andb_prop in H as [H H3]. apply andb_prop in H as [H1 H2]. apply IH in H1 as ->. apply Bool.eqb_prop in H2 as ->. f_equal.
      destruct len, len'; try discriminate; f_equal; [now apply Z.eqb_eq|now apply String.eqb_eq].
    - f_equal. now apply IH.
    - f_equal. now apply IH.
    - f_equal. now apply IH.
  Qed.
  Lemma stored_typed i u : In i (fi_types f) -> In u (stored i) -> typed u.
  Proof.
    intros Hi Hu. destruct (has_sem Hi) as [T S]. destruct i as [x t|e|s|v]; cbn in Hu; [easy|easy| |]; cbn in S.
    - apply in_map_iff in Hu as (fd & <- & Hf). unfold struct_sem in S. destruct (omap _ _) as [ts|] eqn:O; [|discriminate].
      destruct (omap_in_l O Hf) as (p & _ & P). destruct (field_sem f (fd_attr fd) (fd_ty fd)) as [T'|] eqn:FS; [|discriminate]. exact (field_typed FS).
    - apply in_flat_map in Hu as (va & Hv & Hu). unfold union_sem in S. apply guard_some in S as [_ S].
      destruct (un_derive v), (un_indexer v) as [ix|], (un_union v) as [ui|]; try discriminate.
      + destruct (omap _ _) as [vs|] eqn:O; [|discriminate]. destruct (omap_in_l O Hv) as (p & _ & P). unfold serde_variant_sem in P.
        apply obind_some in P as (x & _ & P). destruct (va_tys va) as [|t [|]]; [easy| |discriminate]. destruct Hu as [<-|[]].
        destruct (field_sem f (va_attr va) t) as [T'|] eqn:FS; [|discriminate]. exact (field_typed FS).
      + apply obind_some in S as (vs & O & _). destruct (omap_in_l O Hv) as (p & _ & P). unfold indexer_variant_sem in P.
        apply obind_some in P as (x & _ & P). destruct (va_attr va); try discriminate. destruct (omap (ty_sem f) (va_tys va)) as [ts|] eqn:O'; [|discriminate].
        destruct (omap_in_l O' Hu) as (T' & _ & HT). now exists T'.
      + unfold union_impl_sem in S. apply obind_some in S as (disc & _ & S). apply obind_some in S as (dt & HD & S). apply obind_some in S as (vs & O & _).
        destruct (omap_in_l O Hv) as (p & _ & P). unfold union_variant_sem in P. apply obind_some in P as (x & _ & P).
        destruct (va_attr va); try discriminate. destruct (va_tys va) as [|t ts]; [easy|]. apply guard_some in P as [EQ P]. destruct Hu as [<-|Hu].
        * apply (rty_eqb_refl EQ). now exists dt.
        * destruct (omap (ty_sem f) ts) as [Ts|] eqn:O'; [|discriminate]. destruct (omap_in_l O' Hu) as (T' & _ & HT). now exists T'.
  Qed.
  Lemma stores_typed t : stores f t -> typed t.
  Proof. intros (i & u & Hi & Hu & W). apply (typed_within W). exact (stored_typed Hi Hu). Qed.
  Lemma fielded_stores t : fielded f t -> stores f t.
  Proof. intros (s & fd & Hs & Hf & W). exists (IStruct s), (fd_ty fd). split; [exact Hs|]. split; [cbn; apply in_map_iff; eauto|exact W]. Qed.

  Lemma token_const len z : token_is f len z -> forall c, len = TokId c -> forall n w z', const_sem f n c = Some (w, z') -> z' = z.
  Proof.
    induction 1 as [z|c z Hc H IH]; intros x EQ n w z' S; [discriminate|]. injection EQ as EQ. subst x. destruct n as [|n]; [discriminate|]. cbn in S.
    destruct CO as (_ & _ & _ & _ & NC & _). destruct (find _ (fi_consts f)) as [c'|] eqn:F; [|discriminate].
    apply find_some in F as [Hc' N]. apply String.eqb_eq in N. assert (c' = c) as -> by now apply (NoDup_map_inj NC).
    destruct (co_value c) as [v|y] eqn:V.
    - injection S as _ <-. now inversion H.
    - destruct (const_sem f n y) as [[w' z2]|] eqn:C; [|discriminate]. destruct (Bool.eqb w' (co_wide c)); [|discriminate]. injection S as _ <-.
      exact (IH y eq_refl n w' z2 C).
  Qed.
  Lemma inside_inline y u : inside y u -> In y (inline u).
  Proof. induction 1; cbn; auto. Qed.
  Lemma embeds_inline x y : embeds f x y -> exists i, In i (fi_types f) /\ item_name i = x /\ In y (item_inline i).
  Proof.
    intros [i u z Hi Hu HI]. exists i. split; [exact Hi|]. split; [exact (name_of_eq i)|]. apply inside_inline in HI.
    destruct i as [|e|s|v]; cbn in *; try easy; apply in_flat_map.
    - apply in_map_iff in Hu as (fd & <- & Hf). eauto.
    - apply in_flat_map in Hu as (va & Hv & Hu). exists va. split; [exact Hv|]. apply in_flat_map. eauto.
  Qed.

  Theorem not_rejected : ~ rejected f.
  Proof.
    intros [N|i Hi K|x S NI NT|c U NC|t c S|t len cast z S L B|s fd Hs Hf NF|u ui z v d Hu EU HN ED HD|u va z Hu Hv EN|x CY].
    - destruct CO as (ND & _). apply N. rewrite (map_ext _ _ name_of_eq). exact ND.
    - destruct CO as (_ & NK & _). rewrite Forall_forall in NK. destruct (NK _ Hi) as [A _]. apply A. now rewrite <- name_of_eq.
    - apply stores_typed in S as [T S]. cbn in S. destruct (find_item f x) as [i|] eqn:F; [|discriminate]. unfold find_item in F. apply find_some in F as [Hi EQ].
      apply String.eqb_eq in EQ. apply (NI i Hi). now rewrite name_of_eq.
    - assert (K : forall n, const_sem f n c = None).
      { intros [|n]; [reflexivity|]. cbn. destruct (find _ (fi_consts f)) as [k|] eqn:F; [|reflexivity]. apply find_some in F as [Hk EQ].
        apply String.eqb_eq in EQ. now apply NC in Hk. }
      destruct U as [(k & Hk & EV)|(t & cast & S)].
      + destruct CO as (_ & _ & _ & _ & ND & CC). rewrite Forall_forall in CC. destruct (CC _ Hk) as (_ & w & z & S). unfold const_of_name in S. cbn [const_sem] in S.
        destruct (find _ (fi_consts f)) as [k'|] eqn:F; [|discriminate]. apply find_some in F as [Hk' EQ]. apply String.eqb_eq in EQ.
        assert (k' = k) as -> by now apply (NoDup_map_inj ND). rewrite EV in S. now rewrite K in S.
      + apply stores_typed in S as [T S]. cbn in S. apply obind_some in S as (T' & _ & S). apply obind_some in S as (n & S & _).
        unfold array_len, const_of_name in S. rewrite K in S. destruct cast; discriminate.
    - apply stores_typed in S as [T S]. cbn in S. apply obind_some in S as (T' & _ & S). discriminate.
    - apply fielded_stores, stores_typed in S as [T S]. cbn in S. apply obind_some in S as (T' & _ & S). apply obind_some in S as (n & S & _).
      unfold array_len in S. apply obind_some in S as (z' & A & S). apply guard_some in S as [R _]. assert (z' = z); [|lia].
      destruct len as [z2|c]; [injection A as <-; now inversion L|]. apply guard_some in A as [_ A]. unfold const_of_name in A.
      destruct (const_sem f _ c) as [[w z2]|] eqn:C; [|discriminate]. injection A as <-. exact (token_const L eq_refl C).
    - apply NF. destruct (has_sem Hs) as [T S]. cbn in S. unfold struct_sem in S. destruct (omap _ _) as [ts|] eqn:O; [|discriminate].
      destruct (omap_in_l O Hf) as (p & _ & P). destruct (field_sem f (fd_attr fd) (fd_ty fd)) as [T'|] eqn:FS; [|discriminate]. clear - FS.
      destruct (fd_attr fd); cbn in FS |- *; [exact I| | |].
      + destruct (fd_ty fd) as [| | | | | |t len cast| | | | |]; try discriminate. destruct t as [[] []| | | | | | | | | | |]; try discriminate. eauto.
      + destruct (fd_ty fd) as [| | | | | | |t| | | |]; try discriminate. destruct t as [[] []| | | | | | | | | | |]; try discriminate. reflexivity.
      + destruct (fd_ty fd) as [| | | | |s'| | | | | |]; try discriminate. eauto.
    - destruct (has_sem Hu) as [T S]. cbn in S. unfold union_sem in S. apply guard_some in S as [_ S]. rewrite EU in S.
      destruct (un_derive u), (un_indexer u) as [ix|]; try discriminate. unfold union_impl_sem in S. rewrite ED in S. cbn [obind] in S.
      apply obind_some in S as (dt & _ & S). apply obind_some in S as (vs & _ & S). apply obind_some in S as (names & O & _).
      destruct (omap_in_l O HN) as (p & _ & P). cbn in P. destruct d as [[] []| | | | | | | | | | |]; try discriminate; try exact HD.
    - destruct (has_sem Hu) as [T S]. cbn in S. unfold union_sem in S. apply guard_some in S as [_ S].
      destruct (un_derive u), (un_indexer u) as [ix|], (un_union u) as [ui|]; try discriminate.
      + destruct (omap _ _) as [vs|] eqn:O; [|discriminate]. destruct (omap_in_l O Hv) as (p & _ & P). unfold serde_variant_sem in P. now rewrite EN in P.
      + apply obind_some in S as (vs & O & _). destruct (omap_in_l O Hv) as (p & _ & P). unfold indexer_variant_sem in P. now rewrite EN in P.
      + unfold union_impl_sem in S. apply obind_some in S as (disc & _ & S). apply obind_some in S as (dt & HD & S). apply obind_some in S as (vs & O & _).
        destruct (omap_in_l O Hv) as (p & _ & P). unfold union_variant_sem in P. now rewrite EN in P.
    - destruct CO as (_ & _ & _ & (rank & R) & _). assert (K : forall a b, clos_trans string (embeds f) a b -> (rank b < rank a)%nat).
      { intros a b C. induction C as [a b H|a b c _ IH1 _ IH2]; [|lia]. apply embeds_inline in H as (i & Hi & <- & HI). now apply R. }
      specialize (K _ _ CY). lia.
  Qed.
End Sound.

(** ** Definitions whose code is rejected *)
Section Rejected.
  Variables (cfg : config) (ds : list definition) (n : nat) (f : file).
  Hypothesis G : gen_code n cfg ds = GOk f.
  Let cx := ctx cfg ds.

  Lemma struct_field_from x y l d : In (x, TdStruct y l) (type_defs ds) -> In d l ->
    exists s fd ty op nm, In (IStruct s) (fi_types f) /\ In fd (st_fields s) /\
      convert_type_token (resolve_type_token cx n) d = GOk (Some (ty, op)) /\ snake_case_ident nm = GOk (fd_name fd) /\
      fd_ty fd = (if tyspec_is x (decl_type d) then YBox ty else ty) /\
      fd_attr fd = match op with
                   | OpFixed => AFixed | OpVariable => AVariable
                   | OpNone => if enum_impl_std_trait cfg && match decl_type d with Some t => is_enum_type cx t | None => false end
                               then ASigned32 else ANone
                   end.
  Proof.
    intros I Hd. destruct (item_from G I) as (its & T & S). cbn [type_token_of] in T. apply gbind_ok in T as (s & T & [= <-]).
    unfold convert_struct_token in T. apply gbind_ok in T as (fields & HF & T). apply gbind_ok in T as (nm & _ & T). injection T as T.
    apply gmap_ok in HF. destruct (Forall2_in_l HF Hd) as (fd & Hfd & SF). unfold struct_field in SF. destruct (decl_name d) as [z|]; [|discriminate].
    apply gbind_ok in SF as (o & HO & SF). destruct o as [[ty op]|]; [|discriminate]. cbn [required gbind] in SF. cbv zeta in SF.
    apply gbind_ok in SF as (id & HI & SF). injection SF as SF.
    exists s, fd, ty, op, (if rust_reserved z then "r#" ++ z else z)%string. split; [apply S; now left|]. split; [rewrite <- T; exact Hfd|].
    split; [exact HO|]. rewrite <- SF. cbn [fd_name fd_ty fd_attr]. split; [exact HI|]. split; reflexivity.
  Qed.
  Lemma stores_field s fd t : In (IStruct s) (fi_types f) -> In fd (st_fields s) -> within t (fd_ty fd) -> stores f t.
  Proof. intros Hs Hf W. exists (IStruct s), (fd_ty fd). split; [exact Hs|]. split; [cbn; apply in_map_iff; eauto|exact W]. Qed.
  Lemma within_boxed (b : bool) t : within t (if b then YBox t else t).
  Proof. destruct b; [apply wi_box|]; apply wi_here. Qed.

  Theorem named_length x y l t z c : In (x, TdStruct y l) (type_defs ds) -> In (DFixedArray t z (VIdent c)) l -> rejected f.
  Proof.
    intros I Hd. destruct (struct_field_from I Hd) as (s & fd & ty & op & nm & Hs & Hf & C & _ & ET & _). cbn [convert_type_token] in C.
    apply gbind_ok in C as ([ty' op'] & _ & C). apply gbind_ok in C as (len & HL & C). injection C as C1 C2. cbn in HL. apply gbind_ok in HL as (c' & _ & [= <-]).
    apply rej_length with ty' c'. apply stores_field with s fd; [exact Hs|exact Hf|]. rewrite ET, <- C1. apply within_boxed.
  Qed.
  Lemma consts_at : good_spec ds -> Forall2 const_item_for (const_defs ds) (fi_consts f).
  Proof.
    intros GS. pose proof G as H. apply gen_ok_parts in H as [H _].
    apply gmap_ok in H. cbn [constants ctx] in H. pose proof (good_consts GS) as F.
    induction H as [|[x v] c l cs h H IH]; [constructor|]. inversion F as [|? ? [g1 g2] F']; subst.
    constructor; [now apply const_token_for|now apply IH].
  Qed.
  Lemma token_value v z len : good_spec ds -> good_value v -> convert_value_token KUsize false v = GOk len -> value_is ds v z ->
    (exists t cast, fielded f (YArray t len cast)) -> 32 < z -> rejected f.
  Proof.
    intros GS gv HL V (t & cast & ST) B. pose proof (consts_at GS) as CS. pose proof (good_consts GS) as GC.
    assert (K : token_is f len z \/ exists c, (TokId c = len \/ exists k, In k (fi_consts f) /\ co_value k = TokId c) /\ forall k, In k (fi_consts f) -> co_name k <> c).
    { assert (NM : forall x v, In (x, v) (const_defs ds) -> exists k, In k (fi_consts f) /\ const_item_for (x, v) k).
      { intros x w H. destruct (Forall2_in_l CS H) as (k & Hk & C). eauto. }
      assert (FN : forall k, In k (fi_consts f) -> In (co_name k) (map fst (const_defs ds))).
      { intros k Hk. destruct (Forall2_in_r CS Hk) as ([x w] & Hx & C & _). rewrite C. now apply (in_map fst) in Hx. }
      assert (R : forall v z, value_is ds v z -> forall x, v = VIdent x ->
         token_is f (TokId x) z \/ exists c, (c = x \/ exists k, In k (fi_consts f) /\ co_value k = TokId c) /\ forall k, In k (fi_consts f) -> co_name k <> c).
      { clear - NM FN GC. induction 1 as [k z S|x v z F V IH|x v z N F V IH]; intros y EQ; [discriminate| |].
        - injection EQ as <-. apply first_in in F. destruct (NM _ _ F) as (k & Hk & EN & EK). cbn in EN, EK. rewrite <- EN. destruct v as [q|w].
          + left. apply ti_const; [exact Hk|]. destruct EK as (z' & S & EV & _). inversion V as [? ? S'| |]; subst. rewrite EV, (stands_fun S' S). apply ti_number.
          + destruct EK as [EV _]. destruct (IH w eq_refl) as [T|(c & [->|C] & NC)].
            * left. apply ti_const; [exact Hk|]. now rewrite EV.
            * right. exists w. split; [right; eauto|exact NC].
            * right. exists c. split; [now right|exact NC].
        - injection EQ as <-. right. exists x. split; [now left|]. intros k Hk EN. apply N. rewrite <- EN. now apply FN. }
      destruct v as [q|x]; cbn in HL.
      - left. apply gbind_ok in HL as (z' & HZ & [= <-]). inversion V as [? ? S| |]; subst. rewrite (stands_fun S (constant_stands gv HZ)). apply ti_number.
      - apply gbind_ok in HL as (y & HY & [= <-]). rewrite plain_ident in HY by exact gv. injection HY as <-.
        destruct (R _ _ V x eq_refl) as [T|(c & [->|C] & NC)]; [now left| |]; right; [exists x|exists c]; (split; [|exact NC]); [now left|now right]. }
    destruct K as [T|(c & [<-|U] & NC)].
    - now apply rej_long with t len cast z.
    - apply rej_unbound with c; [right; exists t, cast; destruct ST as (s & fd & Hs & Hf & W); exact (stores_field Hs Hf W)|exact NC].
    - apply rej_unbound with c; [now left|exact NC].
  Qed.
  Theorem long_array x y l d v z : good_spec ds -> In (x, TdStruct y l) (type_defs ds) -> In d l ->
    (exists t w, d = DFixedArray t w v) \/ (exists w, d = DOpaqueFixed w v) -> value_is ds v z -> 32 < z -> rejected f.
  Proof.
    intros GS I Hd HD V B. destruct (struct_field_from I Hd) as (s & fd & ty & op & nm & Hs & Hf & C & _ & ET & _).
    destruct (good_types GS I) as ((_ & _ & gd) & _). rewrite Forall_forall in gd. specialize (gd _ Hd).
    assert (K : exists t' len cast, ty = YArray t' len cast /\ convert_value_token KUsize false v = GOk len /\ good_value v).
    { destruct HD as [(t & w & ->)|(w & ->)]; cbn [convert_type_token] in C; cbn in gd.
      - apply gbind_ok in C as ([ty' op'] & _ & C). apply gbind_ok in C as (len & HL & C). injection C as <- _. exists ty', len, false. tauto.
      - apply gbind_ok in C as (len & HL & C). injection C as <- _. exists (YInt false W8), len, true. tauto. }
    destruct K as (t' & len & cast & -> & HL & gv). apply (token_value GS gv HL V); [|exact B]. exists t', cast.
    exists s, fd. split; [exact Hs|]. split; [exact Hf|]. rewrite ET. apply within_boxed.
  Qed.
  Theorem member_const x c : good_spec ds -> In (x, VIdent c) (const_defs ds) -> ~ In c (map fst (const_defs ds)) -> rejected f.
  Proof.
    intros GS H N. pose proof (consts_at GS) as CS. destruct (Forall2_in_l CS H) as (k & Hk & _ & EV & _).
    apply rej_unbound with c; [left; eauto|]. intros k' Hk' EN. apply N. destruct (Forall2_in_r CS Hk') as ([y w] & Hy & C & _).
    rewrite <- EN, C. now apply (in_map fst) in Hy.
  Qed.
  Theorem enum_container x y l d e z m : good_spec ds -> NoDup (map fst (type_defs ds)) -> enum_impl_std_trait cfg = true ->
    In (x, TdStruct y l) (type_defs ds) -> In d l -> In (e, TdEnum z m) (type_defs ds) -> mentions d = Some (TsIdent e) ->
    (forall w, d <> DVariable (TsIdent e) w) -> rejected f.
  Proof.
    intros GS NT ST I Hd HE M ND. destruct (struct_field_from I Hd) as (s & fd & ty & op & nm & Hs & Hf & C & _ & ET & EA).
    assert (DT : decl_type d = Some (TsIdent e)) by (destruct d; cbn in M |- *; congruence). rewrite DT in ET, EA.
    assert (IE : is_enum_type cx (TsIdent e) = true).
    { cbn. apply existsb_exists. exists (e, TdEnum z m). split; [exact HE|]. cbn. destruct (good_types GS HE) as [_ EQ]. injection EQ as ->. apply String.eqb_refl. }
    assert (NX : tyspec_is x (Some (TsIdent e)) = false).
    { cbn. apply String.eqb_neq. intros ->. apply (assoc_in_nodup NT) in I. apply (assoc_in_nodup NT) in HE. congruence. }
    assert (RE : forall r, resolve_type_token cx n e = GOk r -> r = (YName (camel e), OpNone)).
    { intros r H. destruct n as [|k]; [discriminate|]. cbn [resolve_type_token] in H. apply (assoc_in_nodup NT) in HE. cbn [typedefs cx ctx] in H. rewrite HE in H.
      assert (K : (name <~ upper_camel_case_ident e;; GOk (YName name, OpNone)) = GOk r) by (destruct (remove_typedef _); exact H).
      apply gbind_ok in K as (nm' & K & [= <-]). apply camel_back in K as [-> _]. reflexivity. }
    apply rej_with with s fd; [exact Hs|exact Hf|]. rewrite ET, EA, NX, ST, IE. cbn [andb].
    destruct d as [t w|t w v|t w o| | | |t w|]; cbn in M; try discriminate; injection M as ->; cbn [convert_type_token convert_primitive_token] in C.
    - now destruct (ND w).
    - apply gbind_ok in C as (r & HR & C). apply RE in HR as ->. apply gbind_ok in C as (len & _ & C). injection C as <- <-. now intros [q Q].
    - apply gbind_ok in C as (r & HR & C). apply RE in HR as ->. injection C as <- <-. now intros [q Q].
    - apply gbind_ok in C as (r & HR & C). apply RE in HR as ->. injection C as <- <-. now intros [q Q].
  Qed.

  Lemma values_int w : forall l s acc p, union_values cx n w s l acc = GOk p -> is_enum_type cx w = false ->
    (forall q, In q (up_values acc) -> In q (up_values p)) /\
    (l <> [] -> exists z v, In (PtNum z, v) (up_values p)) /\
    (forall ty op, convert_primitive_token (resolve_type_token cx n) w = GOk (ty, op) -> l <> [] -> up_cond p = Some ty).
  Proof.
    induction l as [|[[e d] v] l IH]; intros s acc p H NE; cbn [union_values] in H.
    - injection H as <-. split; [easy|]. split; [easy|easy].
    - apply gbind_ok in H as (fill & _ & H). apply gbind_ok in H as (ct & HC & H). rewrite NE in H. cbn [gbind] in H.
      apply gbind_ok in H as (s' & _ & H). pose proof H as H'. apply IH in H' as (K1 & K2 & K3); [|exact NE]. cbn [up_values up_cond] in K1.
      split; [intros q Hq; apply K1; apply in_or_app; now left|]. split.
      + intros _. exists e, (ct_name ct). apply K1. apply in_or_app. right. now left.
      + intros ty op R _. destruct l as [|c l]; [|now apply (K3 ty op R)]. cbn [union_values] in H. injection H as <-. cbn [up_cond].
        f_equal. unfold convert_case_token in HC. apply gbind_ok in HC as (nm & _ & HC). rewrite R in HC. cbn [gbind] in HC.
        apply gbind_ok in HC as (o & _ & HC). injection HC as <-. destruct o as [[]|]; destruct (union_impl_union _); reflexivity.
  Qed.
  Theorem int_union x y w specs dflt : good_spec ds -> union_impl_union cfg = true ->
    In (x, TdUnion y (UBody (DVariable (TsInt true) w) specs dflt)) (type_defs ds) -> rejected f.
  Proof.
    intros GS UN I. destruct (item_from G I) as (its & T & S). cbn [type_token_of] in T. apply gbind_ok in T as (u & T & [= <-]).
    destruct (good_types GS I) as ((_ & gc & ne & gs & _) & _). apply good_fold in gs.
    unfold convert_union_token in T. apply gbind_ok in T as (nm & _ & T). cbn [gbind] in T. apply gbind_ok in T as (p & HP & T).
    apply gbind_ok in T as (q & HQ & T). cbv zeta in T. destruct (up_default q) as [dv|]; [|discriminate]. injection T as T.
    apply gbind_ok in HP as (vals & HV & HP). destruct (values_int HP eq_refl) as (_ & K2 & K3).
    assert (NE : sort_by (fun p => fst (fst p)) (concat vals) <> []).
    { destruct specs as [|[vs d] specs]; [easy|]. apply gmap_ok in HV. inversion HV as [|? l ? ls H1 H2]; subst. apply gmap_ok in H1.
      inversion gs as [|? ? g _]; subst. destruct g as (nv & _). destruct vs as [|v vs]; [easy|]. inversion H1 as [|? c ? cs]; subst. cbn [concat app].
      intros E0. pose proof (sort_by_perm (fun p : Z * decl * value => fst (fst p)) (c :: cs ++ concat ls)) as P. rewrite E0 in P.
      apply Permutation_nil in P. discriminate. }
    destruct (K2 NE) as (z & v & HI). specialize (K3 (YInt true W32) OpNone eq_refl NE).
    apply rej_literal with u (UnionImpl (up_cond q) (up_values q) (Some (match dflt with Some _ => Some default_id | None => None end))) z v (YInt true W32).
    - apply S. now left.
    - rewrite <- T. cbn [un_union]. rewrite UN. destruct dflt; reflexivity.
    - cbn [ui_names]. unfold union_default in HQ. destruct dflt as [dd|]; [|injection HQ as <-; exact HI].
      apply gbind_ok in HQ as (o & _ & HQ). cbv zeta in HQ. injection HQ as <-. exact HI.
    - cbn [ui_disc]. unfold union_default in HQ. destruct dflt as [dd|]; [|injection HQ as <-; exact K3].
      apply gbind_ok in HQ as (o & _ & HQ). cbv zeta in HQ. injection HQ as <-. exact K3.
    - exact Logic.I.
  Qed.

  Theorem undefined_type x y l d e c : In (x, TdStruct y l) (type_defs ds) -> In d l -> mentions d = Some (TsIdent e) ->
    camel_of e c -> (forall z t, In (z, t) (type_defs ds) -> ~ camel_of z c) -> ~ In c taken -> rejected f.
  Proof.
    intros I Hd M CE ND NT. destruct (struct_field_from I Hd) as (s & fd & ty & op & nm & Hs & Hf & C & _ & ET & EA). apply camel_of_iff in CE as EC.
    assert (RE : forall r, resolve_type_token cx n e = GOk r -> r = (YName c, OpNone)).
    { intros r H. destruct n as [|k]; [discriminate|]. cbn [resolve_type_token] in H. cbn [typedefs cx ctx] in H.
      destruct (assoc String.eqb e (type_defs ds)) as [t|] eqn:A; [exfalso; apply assoc_first, first_in in A; now apply (ND _ _ A)|].
      assert (K : (name <~ upper_camel_case_ident e;; GOk (YName name, OpNone)) = GOk r) by (destruct (remove_typedef _); exact H).
      apply gbind_ok in K as (nm' & K & [= <-]). apply camel_back in K as [-> _]. now rewrite EC. }
    assert (W : within (YName c) ty).
    { destruct d as [t w|t w v|t w o| | | |t w|]; cbn in M; try discriminate; injection M as ->; cbn [convert_type_token convert_primitive_token] in C.
      - apply gbind_ok in C as (r & HR & C). apply RE in HR as ->. injection C as <- <-. apply wi_here.
      - apply gbind_ok in C as (r & HR & C). apply RE in HR as ->. apply gbind_ok in C as (len & _ & C). injection C as <- <-. apply wi_array, wi_here.
      - apply gbind_ok in C as (r & HR & C). apply RE in HR as ->. injection C as <- <-. apply wi_vec, wi_here.
      - apply gbind_ok in C as (r & HR & C). apply RE in HR as ->. injection C as <- <-. apply wi_option, wi_here. }
    apply rej_undefined with c; [|intros i Hi EN|exact NT].
    - apply stores_field with s fd; [exact Hs|exact Hf|]. rewrite ET. destruct (tyspec_is _ _); [apply wi_box|]; exact W.
    - destruct (item_named G Hi) as (z & t & Hz & CN). apply (ND z t Hz). apply camel_of_iff. destruct CN as [CN _]. now rewrite <- EN, name_of_eq.
  Qed.
End Rejected.

Theorem number_label cfg ds f x y t w specs dflt c : good_spec ds -> greturns (fun n => gen_code n cfg ds) (GOk f) ->
  In (x, TdUnion y (UBody (DVariable t w) specs dflt)) (type_defs ds) -> t <> TsBool -> In (VConst c) (labels specs) -> rejected f.
Proof.
  intros GS H I NB L. destruct (numeric_label GS H I NB L) as (u & va & z & Hu & _ & Hv & EN & _).
  apply rej_number with u va z; [|exact Hv|exact EN]. apply in_flat_map in Hu as (i & Hi & Hu). destruct i; try easy. now destruct Hu as [->|[]].
Qed.
Theorem accepted fl checks src ds : let cfg := main_config fl checks in greturns (fun n => parse n src) (GOk ds) -> definitions_ok cfg ds ->
  exists f E, generated cfg ds f E /\ compiles f /\ ~ rejected f.
Proof.
  intros cfg P D. destruct (c56 P D) as (f & E & H & C & _). exists f, E. split; [exact H|]. split; [exact C|]. exact (not_rejected (proj2 H) C).
Qed.
(** for the statements *)
Lemma named_length_g cfg ds f x y l t z c : greturns (fun n => gen_code n cfg ds) (GOk f) ->
  In (x, TdStruct y l) (type_defs ds) -> In (DFixedArray t z (VIdent c)) l -> rejected f.
Proof. intros H. apply greturns_run in H as (n & H & _). now apply named_length with cfg n. Qed.
Lemma long_array_g cfg ds f x y l d v z : good_spec ds -> greturns (fun n => gen_code n cfg ds) (GOk f) ->
  In (x, TdStruct y l) (type_defs ds) -> In d l ->
  (exists t w, d = DFixedArray t w v) \/ (exists w, d = DOpaqueFixed w v) -> value_is ds v z -> 32 < z -> rejected f.
Proof. intros GS H. apply greturns_run in H as (n & H & _). now apply long_array with cfg n. Qed.
Lemma member_const_g cfg ds f x c : good_spec ds -> greturns (fun n => gen_code n cfg ds) (GOk f) ->
  In (x, VIdent c) (const_defs ds) -> ~ In c (map fst (const_defs ds)) -> rejected f.
Proof. intros GS H. apply greturns_run in H as (n & H & _). now apply member_const with cfg n. Qed.
Lemma enum_container_g cfg ds f x y l d e z m : good_spec ds -> NoDup (map fst (type_defs ds)) -> enum_impl_std_trait cfg = true ->
  greturns (fun n => gen_code n cfg ds) (GOk f) -> In (x, TdStruct y l) (type_defs ds) -> In d l ->
  In (e, TdEnum z m) (type_defs ds) -> mentions d = Some (TsIdent e) -> (forall w, d <> DVariable (TsIdent e) w) -> rejected f.
Proof. intros GS N S H. apply greturns_run in H as (n & H & _). now apply enum_container with cfg n. Qed.
Lemma int_union_g cfg ds f x y w specs dflt : good_spec ds -> union_impl_union cfg = true ->
  greturns (fun n => gen_code n cfg ds) (GOk f) ->
  In (x, TdUnion y (UBody (DVariable (TsInt true) w) specs dflt)) (type_defs ds) -> rejected f.
Proof. intros GS U H. apply greturns_run in H as (n & H & _). now apply int_union with cfg n. Qed.
Lemma undefined_type_g cfg ds f x y l d e c : greturns (fun n => gen_code n cfg ds) (GOk f) ->
  In (x, TdStruct y l) (type_defs ds) -> In d l -> mentions d = Some (TsIdent e) ->
  camel_of e c -> (forall z t, In (z, t) (type_defs ds) -> ~ camel_of z c) -> ~ In c taken -> rejected f.
Proof. intros H. apply greturns_run in H as (n & H & _). now apply undefined_type with cfg n. Qed.
