(** Default values of generated types. *)
From Coq Require Import Permutation.
From Verif Require Import Base SpecUtf8 RustTypes SpecXdr SpecTypes XdrFacts SpecMisc SerModel DeModel SpecDecode EncProofs RvalFacts DecProofs CodecProofs CodecLemmas
  Nom NomFacts Keyword Ast ParserModel SpecGrammar SpecParse
  ParseSound ParserLemmas ConstProofs CaseModel SpecCase CaseProofs RustAst GenModel SpecGen SpecItems GenFacts GenTotal GenPanic GenLemmas
  SpecXdl GenSem SpecWire WireBase WireEnum WireBack WireEnums WireLemmas SpecEmit EmitBase EmitProofs EmitFlags EmitItems EmitNames EmitRun EmitStop EmitSize DefaultModel.
Set Implicit Arguments.
Unset Strict Implicit.
Local Open Scope list_scope.

Lemma variant_named_spec x vs : forall k i va, variant_named x k vs = Some (i, va) ->
  exists j y, i = (k + j)%nat /\ nth_error vs j = Some va /\ va_name va = TokId y /\ x = TokId y.
Proof.
  induction vs as [|v vs IH]; intros k i va H; [discriminate|]. cbn in H.
  assert (R : variant_named x (S k) vs = Some (i, va) -> exists j y, i = (k + j)%nat /\ nth_error (v :: vs) j = Some va /\ va_name va = TokId y /\ x = TokId y).
  { intros K. destruct (IH _ _ _ K) as (j & y & -> & N & EN). exists (S j), y. split; [lia|]. now split. }
  destruct (va_name v) as [|y] eqn:EV; [auto|]. destruct x as [|z]; [auto|]. destruct (String.eqb_spec y z) as [<-|]; [|auto].
  injection H as <- <-. exists 0%nat, y. split; [lia|]. now split.
Qed.
Lemma variant_named_some x vs : forall k, (exists va, In va vs /\ va_name va = TokId x) -> exists i va, variant_named (TokId x) k vs = Some (i, va).
Proof.
  induction vs as [|v vs IH]; intros k (va & H & EN); [destruct H|]. cbn. destruct (va_name v) as [z|y] eqn:EV.
  - destruct H as [->|H]; [congruence|]. apply IH. eauto.
  - destruct (String.eqb_spec y x) as [<-|N]; [eauto|]. destruct H as [->|H]; [congruence|]. apply IH. eauto.
Qed.
Lemma position_some x l : In x l -> exists i, position x l = Some i.
Proof.
  induction l as [|y l IH]; [easy|]. cbn. destruct (String.eqb_spec x y) as [->|N]; [eauto|]. intros [EQ|H]; [congruence|].
  destruct (IH H) as [i ->]. now exists (S i).
Qed.

Section Stops.
  Variable f : file.
  (** [t::default()] is [v] *)
  Definition starts (t : rty) (v : rval) : Prop := exists N, forall n, (N <= n)%nat -> default_of f n t = Ok v.

  Lemma starts_now t v : (forall n, default_of f (S n) t = Ok v) -> starts t v.
  Proof. intros H. exists 1%nat. intros [|n] L; [lia|]. apply H. Qed.
  Lemma starts_all {A} (g : A -> rty) (h : A -> rval -> rval) l : (forall a, In a l -> exists v, starts (g a) v) ->
    exists vs N, forall n, (N <= n)%nat -> mapM (fun a => v <- default_of f n (g a);; Ok (h a v)) l = Ok vs.
  Proof.
    induction l as [|a l IH]; intros H; [now exists [], 0%nat|]. destruct (H a (or_introl eq_refl)) as (v & N & K).
    destruct IH as (vs & M & KL); [intros; apply H; now right|]. exists (h a v :: vs), (Nat.max N M). intros n L. cbn. rewrite K, KL by lia. easy.
  Qed.
  Lemma starts_array t k : (exists v, starts t v) -> exists vs N, forall n, (N <= n)%nat -> mapM (default_of f n) (repeat t k) = Ok vs.
  Proof.
    intros (v & N & K). exists (repeat v k), N. intros n L. induction k; cbn; [easy|]. now rewrite K, IHk.
  Qed.

  Lemma starts_free t : forall T, ty_sem f t = Some T -> boxfree t ->
    (forall x i, In x (inline t) -> find_item f x = Some i -> exists v, starts (YName x) v) -> exists v, starts t v.
  Proof.
    induction t; intros T H B N; try (eexists; apply starts_now; reflexivity).
    - cbn [ty_sem] in H. destruct (find_item f x) as [i|] eqn:F; [|discriminate]. apply (N x i); [now left|exact F].
    - cbn [ty_sem] in H. apply obind_some in H as (T' & HT & H). apply obind_some in H as (k & HK & _).
      destruct (@starts_array t k (IHt _ HT B N)) as (vs & M & K). exists (RSeq vs), (S M). intros [|n] L; [lia|]. cbn [default_of]. rewrite HK, K by lia. easy.
    - easy.
  Qed.
  Lemma starts_boxes t T : ty_sem f t = Some T -> boxes_ok t -> (forall x i, In x (inline t) -> find_item f x = Some i -> exists v, starts (YName x) v) -> exists v, starts t v.
  Proof.
    intros H [B|(t' & B & -> & C)] N; [now apply starts_free with T|].
    assert (K : exists v, starts t' v); [|destruct K as (v & M & K); exists v, (S M); intros [|n] L; [lia|]; apply K; lia].
    cbn [ty_sem] in H. destruct (ty_sem f t') as [T'|] eqn:HT; [|discriminate].
    assert (O : (exists t1, t' = YOption t1) \/ inline t' = []) by (destruct t' as [| | | | | |[]| | | | |]; try easy; eauto).
    destruct O as [(t1 & ->)|O]; [exists RNone; now apply starts_now|]. apply starts_free with T'; [easy|easy|]. intros x i Hx. now rewrite O in Hx.
  Qed.
  Lemma field_ty a t T : field_sem f a t = Some T -> exists T', ty_sem f t = Some T'.
  Proof.
    destruct a; cbn [field_sem].
    - eauto.
    - destruct t as [| | | | | |[[|] []| | | | | | | | | | |] len cast| | | | |]; try discriminate. cbn. destruct (array_len f len cast); [|discriminate]. cbn. eauto.
    - destruct t as [| | | | | | |[[|] []| | | | | | | | | | |]| | | |]; try discriminate. cbn. eauto.
    - destruct t; try discriminate. cbn. intros H. apply obind_some in H as (e & H & _). unfold find_enum in H. destruct (find_item f x); [eauto|discriminate].
  Qed.
  Lemma starts_item i T : find_item f (item_name i) = Some i -> item_sem f i = Some T -> (forall t, In t (item_tys i) -> boxes_ok t) ->
    (forall x j, In x (item_inline i) -> find_item f x = Some j -> exists v, starts (YName x) v) -> exists v, starts (YName (item_name i)) v.
  Proof.
    intros F S B N. destruct i as [x t|e|s|u]; cbn [item_sem] in S; cbn [item_tys] in B; cbn [item_inline] in N; cbn [item_name] in F |- *.
    - destruct (@starts_boxes t T S (B _ (or_introl eq_refl)) N) as (v & M & K). exists v, (Datatypes.S M). intros [|n] L; [lia|]. cbn [default_of]. rewrite F. apply K. lia.
    - unfold enum_sem in S. apply guard_some in S as [X _]. apply existsb_exists in X as (y & Hy & EQ). apply String.eqb_eq in EQ as <-.
      destruct (position_some Hy) as [i P]. exists (RVariant i []). apply starts_now. intros n. cbn [default_of]. now rewrite F, P.
    - unfold struct_sem in S. destruct (omap _ _) as [l|] eqn:O; [|discriminate]. clear S.
      destruct (@starts_all _ fd_ty (fun fd => with_attr (fd_attr fd)) (st_fields s)) as (vs & M & K).
      { intros fd Hf. destruct (omap_in_l O Hf) as (p & _ & P). destruct (field_sem _ _ _) as [T'|] eqn:FS; [|discriminate].
        destruct (field_ty FS) as [U HU]. apply starts_boxes with U; [exact HU|apply B; now apply in_map|].
        intros x i Hx. apply N. apply in_flat_map. eauto. }
      exists (RSeq vs), (Datatypes.S M). intros [|n] L; [lia|]. cbn [default_of]. rewrite F, K by lia. easy.
    - unfold union_sem in S. apply guard_some in S as [X S]. unfold default_fits in X. apply existsb_exists in X as (va & Hva & X).
      destruct (va_name va) as [|y] eqn:EV; [discriminate|]. destruct (fst (un_default u)) as [|z] eqn:ED; [discriminate|].
      apply andb_prop in X as [X _]. apply String.eqb_eq in X as ->.
      destruct (@variant_named_some z (un_variants u) 0%nat) as (i & va' & V); [eauto|].
      destruct (variant_named_spec V) as (j & y & -> & NV & EN & _). apply nth_error_In in NV.
      assert (TS : forall t, In t (va_tys va') -> exists U, ty_sem f t = Some U).
      { intros t Ht. destruct (un_derive u); try discriminate; destruct (un_indexer u) as [ix|]; try discriminate; destruct (un_union u) as [ui|]; try discriminate.
        - destruct (omap _ _) as [vs|] eqn:O; [|discriminate]. destruct (omap_in_l O NV) as (p & _ & P). unfold serde_variant_sem in P.
          apply obind_some in P as (w & _ & P). destruct (va_tys va') as [|t1 [|]]; [destruct Ht| |discriminate]. destruct Ht as [<-|[]].
          destruct (field_sem _ _ _) as [T'|] eqn:FS; [|discriminate]. exact (field_ty FS).
        - apply obind_some in S as (vs & O & _). destruct (omap_in_l O NV) as (p & _ & P). unfold indexer_variant_sem in P.
          apply obind_some in P as (w & _ & P). destruct (va_attr va'); try discriminate. destruct (omap (ty_sem f) _) as [ts|] eqn:O'; [|discriminate].
          destruct (omap_in_l O' Ht) as (U & _ & HU). eauto.
        - unfold union_impl_sem in S. apply obind_some in S as (disc & _ & S). apply obind_some in S as (dt & DT & S). apply obind_some in S as (vs & O & _).
          destruct (omap_in_l O NV) as (p & _ & P). unfold union_variant_sem in P. apply obind_some in P as (w & _ & P).
          destruct (va_attr va'); try discriminate. destruct (va_tys va') as [|t1 ts]; [discriminate|]. apply guard_some in P as [EQ P].
          apply rty_eqb_eq in EQ as ->. destruct Ht as [<-|Ht]; [eauto|]. destruct (omap (ty_sem f) ts) as [Ts|] eqn:O'; [|discriminate].
          destruct (omap_in_l O' Ht) as (U & _ & HU). eauto. }
      destruct (@starts_all _ (fun t => t) (fun _ => with_attr (va_attr va')) (va_tys va')) as (vs & M & K).
      { intros t Ht. destruct (TS t Ht) as [U HU]. apply starts_boxes with U; [exact HU|apply B; apply in_flat_map; eauto|].
        intros x i Hx. apply N. apply in_flat_map. exists va'. split; [easy|]. apply in_flat_map. eauto. }
      exists (RVariant (0 + j) vs), (Datatypes.S M). intros [|n] L; [lia|]. cbn [default_of]. rewrite F, ED, V, K by lia. easy.
  Qed.
End Stops.

Section Values.
  Variables (f : file) (E : env).
  Hypothesis FE : file_env f = Some E.
  Hypothesis CO : compiles f.
  Lemma item_typed i : In i (fi_types f) -> exists T, item_sem f i = Some T /\ lookup E (item_name i) = Some T.
  Proof.
    intros H. destruct CO as (ND & _). unfold file_env in FE. apply omap_some in FE.
    assert (K : forall l E', Forall2 (fun i p => option_map (Datatypes.pair (item_name i)) (item_sem f i) = Some p) l E' -> In i l -> NoDup (map item_name l) ->
      exists T, item_sem f i = Some T /\ lookup E' (item_name i) = Some T); [|exact (K _ _ FE H ND)]. clear.
    intros l E' O. induction O as [|j [x T] l E' h O IH]; intros H ND; [destruct H|].
    cbn in ND. inversion ND as [|? ? NI ND']; subst. destruct (item_sem f j) as [T'|] eqn:S; [|discriminate]. injection h as <- <-. unfold lookup. cbn.
    destruct H as [->|H]; [rewrite String.eqb_refl; eauto|]. destruct (String.eqb_spec (item_name i) (item_name j)) as [EQ|N].
    - exfalso. apply NI. rewrite <- EQ. now apply in_map.
    - now apply IH.
  Qed.
  Lemma found i : In i (fi_types f) -> find_item f (item_name i) = Some i.
  Proof.
    intros Hi. unfold find_item. destruct (find _ _) as [j|] eqn:F.
    - apply find_some in F as [Hj N]. apply String.eqb_eq in N. destruct CO as (ND & _). f_equal. now apply (NoDup_map_inj ND).
    - apply find_none with (x := i) in F; [|easy]. now rewrite String.eqb_refl in F.
  Qed.
  Lemma find_in x i : find_item f x = Some i -> In i (fi_types f) /\ item_name i = x.
  Proof. intros F. apply find_some in F as [Hi N]. apply String.eqb_eq in N. easy. Qed.

  (** ** Values *)
  (** what the default of an enum or union must fulfil *)
  Definition enum_starts (e : enum_item) : Prop := forall T i, enum_sem e = Some T \/ signed_sem e = Some T ->
    position (en_default e) (enum_names e) = Some i -> supported E T (RVariant i []).
  Definition union_starts (u : union_item) : Prop := forall T n i va vs, union_sem f u = Some T ->
    variant_named (fst (un_default u)) 0 (un_variants u) = Some (i, va) ->
    mapM (fun t => v <- default_of f n t;; Ok (with_attr (va_attr va) v)) (va_tys va) = Ok vs ->
    Forall2 (fun t v => forall U, field_sem f (va_attr va) t = Some U -> supported E U v) (va_tys va) vs ->
    supported E T (RVariant i vs).

  Hypothesis ES : forall e, In (IEnum e) (fi_types f) -> enum_starts e.
  Hypothesis US : forall u, In (IUnion u) (fi_types f) -> union_starts u.

  Hypothesis BO : forall i t, In i (fi_types f) -> In t (item_tys i) -> boxes_ok t.

  Lemma denotes_repeat (R : bool) T v x : denotes R E T v x -> forall k, denotes_all R E (repeat T k) (repeat v k) (repeat x k).
  Proof. intros H. induction k; cbn; now constructor. Qed.
  Lemma mapM_repeat {A B} (g : A -> res B) a k vs : mapM g (repeat a k) = Ok vs -> (k = 0%nat /\ vs = []) \/ exists b, g a = Ok b /\ vs = repeat b k.
  Proof.
    destruct k as [|k]; [left; now injection H as <-|]. intros H. right. cbn in H. destruct (g a) as [b| | | |] eqn:EG; try discriminate. exists b. split; [easy|].
    cbn in H. destruct (mapM g (repeat a k)) as [bs| | | |] eqn:EM; try discriminate. injection H as <-. cbn. f_equal. clear - EM EG.
    revert bs EM. induction k; intros bs EM; cbn in EM; [now injection EM as <-|]. rewrite EG in EM. cbn in EM.
    destruct (mapM g (repeat a k)) as [cs| | | |]; try discriminate. injection EM as <-. cbn. f_equal. now apply IHk.
  Qed.
  Lemma supported_all (g : rty -> option ty) ts Ts vs : omap g ts = Some Ts ->
    Forall2 (fun t v => forall U, g t = Some U -> supported E U v) ts vs -> exists xs, denotes_all true E Ts vs xs.
  Proof.
    intros O H. revert Ts O. induction H as [|t v ts vs h H IH]; intros Ts O; cbn in O; [injection O as <-; exists []; constructor|].
    apply obind_some in O as (U & HU & O). apply obind_some in O as (Us & HUs & O). injection O as <-.
    destruct (h _ HU) as [x D]. destruct (IH _ HUs) as [xs DS]. exists (x :: xs). now constructor.
  Qed.
  Lemma mapM_forall2 {A B} (g : A -> res B) l vs : mapM g l = Ok vs -> Forall2 (fun a v => g a = Ok v) l vs.
  Proof.
    revert vs. induction l as [|a l IH]; intros vs H; cbn in H; [injection H as <-; constructor|].
    destruct (g a) as [b| | | |] eqn:EG; try discriminate. cbn in H. destruct (mapM g l) as [bs| | | |]; try discriminate. injection H as <-. constructor; auto.
  Qed.
  Lemma variable_array : supported E TVariableArray (RSeq [RBytes []]).
  Proof. eexists. apply dn_struct. cbn. apply dn_cons; [|apply dn_nil]. apply dn_opaque. cbn. lia. Qed.

  Lemma default_supported : forall n t v, boxes_ok t -> default_of f n t = Ok v ->
    (forall T, ty_sem f t = Some T -> supported E T v) /\ (forall a T, field_sem f a t = Some T -> supported E T (with_attr a v)).
  Proof.
    induction n as [|n IH]; [discriminate|]. intros t v BT H.
    assert (P : forall T, ty_sem f t = Some T -> supported E T v).
    { intros T S. destruct t; cbn [default_of ty_sem] in H, S.
      - injection H as <-. injection S as <-. destruct (xint s w 0) as [x|] eqn:X.
        + exists x. apply dn_int; [destruct s, w; cbn; lia|exact X].
        + exfalso. destruct BT as [BT|(t' & _ & BT & _)]; [|discriminate]. destruct w; try contradiction; now destruct s.
      - injection H as <-. injection S as <-. eexists. apply dn_f32. lia.
      - injection H as <-. injection S as <-. eexists. apply dn_f64. lia.
      - injection H as <-. injection S as <-. eexists. apply dn_bool.
      - injection H as <-. injection S as <-. eexists. apply dn_str; [constructor|cbn; lia].
      - destruct (find_item f x) as [i|] eqn:F; [|discriminate]. injection S as <-. destruct (find_in F) as [Hi <-]. destruct (item_typed Hi) as (T & S & L).
        assert (K : supported E T v); [|destruct K as [y K]; exists y; now apply dn_ref with T].
        destruct i as [x t|e|s|u]; cbn [item_sem] in S.
        + apply IH with t; [apply (BO Hi); now left|easy|easy].
        + destruct (position _ _) as [i|] eqn:P; [|discriminate]. injection H as <-. apply (ES Hi); [now left|exact P].
        + destruct (mapM _ _) as [vs| | | |] eqn:M; try discriminate. injection H as <-. unfold struct_sem in S.
          destruct (omap _ _) as [l|] eqn:O; [|discriminate]. injection S as <-.
          pose proof (fun t => @BO _ t Hi) as BS. cbn [item_tys] in BS.
          assert (D : exists xs, denotes_all true E (map snd l) vs xs); [|destruct D as [xs D]; exists (XStruct xs); now apply dn_struct].
          apply mapM_forall2 in M. clear - M BS IH O. revert l O. induction M as [|fd w fds vs h M IHM]; intros l O; cbn in O; [injection O as <-; exists []; constructor|].
          apply obind_some in O as (p & P & O). apply obind_some in O as (ps & PS & O). injection O as <-.
          destruct (field_sem _ _ _) as [U|] eqn:FS; [|discriminate]. injection P as <-.
          destruct (default_of f n (fd_ty fd)) as [w0| | | |] eqn:D0; try discriminate. injection h as <-. destruct (IH _ _ (BS _ (or_introl eq_refl)) D0) as [_ B].
          destruct (B _ _ FS) as [x DX]. destruct (IHM (fun t H => BS t (or_intror H)) ps PS) as [xs DXS]. exists (x :: xs). now constructor.
        + destruct (variant_named _ _ _) as [[i va]|] eqn:V; [|discriminate]. destruct (mapM _ _) as [vs| | | |] eqn:M; try discriminate. injection H as <-.
          apply (US Hi S V M). apply mapM_forall2 in M. destruct (variant_named_spec V) as (j & y & _ & NV & _). apply nth_error_In in NV.
          assert (BS : forall t, In t (va_tys va) -> boxes_ok t) by (intros t Ht; apply (BO Hi); cbn; apply in_flat_map; eauto).
          clear - M BS IH. induction M as [|t w ts vs h M IHM]; [constructor|]. constructor; [|apply IHM; intros; apply BS; now right]. intros U FS.
          destruct (default_of f n t) as [w0| | | |] eqn:D0; try discriminate. injection h as <-. destruct (IH _ _ (BS _ (or_introl eq_refl)) D0) as [_ B]. now apply B.
      - apply obind_some in S as (T' & ST & S). apply obind_some in S as (k & SK & S). injection S as <-. rewrite SK in H.
        destruct (mapM _ _) as [vs| | | |] eqn:M; try discriminate. injection H as <-. apply mapM_repeat in M as [[-> ->]|(w & D & ->)].
        + exists (XFArray []). apply dn_array. constructor.
        + destruct (IH t w) as [B _]; [destruct BT as [BT|(t' & _ & BT & _)]; [now left|discriminate]|exact D|]. destruct (B _ ST) as [x DX]. eexists. apply dn_array. exact (denotes_repeat DX k).
      - destruct (ty_sem f t) as [T'|]; [|discriminate]. injection S as <-. injection H as <-. exists (XArray []). apply dn_seq; [cbn; lia|constructor].
      - injection S as <-. injection H as <-. exists (XArray []). apply dn_seq; [cbn; lia|constructor].
      - destruct (ty_sem f t) as [T'|]; [|discriminate]. injection S as <-. injection H as <-. exists XNone. apply dn_none.
      - destruct (ty_sem f t) as [T'|] eqn:ST; [|discriminate]. injection S as <-. destruct (IH t v) as [B _]; [destruct BT as [BT|(t' & BF & [= <-] & _)]; [easy|now left]|exact H|].
        destruct (B _ ST) as [x DX]. exists x. now apply dn_box.
      - injection S as <-. injection H as <-. exact variable_array. }
    split; [exact P|]. intros a T S. destruct a; cbn [field_sem] in S.
    - cbn. now apply P.
    - destruct t as [| | | | | |[[|] []| | | | | | | | | | |] len cast| | | | |]; try discriminate. cbn [default_of] in H.
      destruct (array_len f len cast) as [k|] eqn:AL; [|discriminate]. injection S as <-.
      destruct (mapM _ _) as [vs| | | |] eqn:M; try discriminate. injection H as <-. cbn. eexists. apply dn_fopaque. rewrite map_length.
      apply mapM_forall2 in M. rewrite <- (Forall2_length' M). apply repeat_length.
    - destruct t as [| | | | | | |[[|] []| | | | | | | | | | |]| | | |]; try discriminate. injection S as <-. injection H as <-. cbn. eexists. apply dn_opaque. cbn. lia.
    - destruct t; try discriminate. apply obind_some in S as (e & FI & S). unfold find_enum in FI. cbn [default_of] in H.
      destruct (find_item f x) as [[|e'| |]|] eqn:F; try discriminate. injection FI as ->. destruct (find_in F) as [Hi _].
      destruct (position _ _) as [i|] eqn:PS; [|discriminate]. injection H as <-. cbn. apply (ES Hi); [now right|exact PS].
  Qed.
End Values.
Lemma all_start cfg ds n f E : gen_code n cfg ds = GOk f -> file_env f = Some E -> compiles f -> self_free ds ->
  forall i, In i (fi_types f) -> exists v, starts f (YName (item_name i)) v.
Proof.
  intros G FE CO SF. pose proof CO as (_ & _ & _ & (rank & R) & _).
  assert (K : forall k x i, (rank x < k)%nat -> In i (fi_types f) -> item_name i = x -> exists v, starts f (YName x) v); [|intros i Hi; apply (K (S (rank (item_name i))) _ i); [lia|easy|easy]].
  induction k as [|k IH]; [lia|]. intros x i L Hi <-. destruct (item_typed FE CO Hi) as (T & S & _).
  apply starts_item with (1 := found CO Hi) (2 := S).
  - intros t. now apply item_boxes with (1 := G).
  - intros y j Hy F. pose proof (R _ _ Hi Hy) as RY. destruct (find_in F) as [Hj EN]. apply (IH y j); [lia|easy|easy].
Qed.
