(** Sizes of messages, and structs that contain themselves. *)
From Verif Require Import Base RustTypes SpecXdr SpecTypes XdrFacts SpecMisc SerModel DeModel SpecDecode DecProofs CodecProofs NormProofs CodecLemmas
  Nom NomFacts Keyword Ast ParserModel SpecGrammar SpecParse
  ParseSound ParserLemmas ConstProofs CaseModel SpecCase CaseProofs RustAst GenModel SpecGen SpecItems GenFacts GenTotal GenPanic GenLemmas
  SpecXdl GenSem SpecWire WireBase WireEnum WireBack WireEnums WireMain SpecEmit SpecSize EmitBase EmitProofs EmitFlags EmitItems EmitNames EmitRun.
Set Implicit Arguments.
Unset Strict Implicit.
Local Open Scope list_scope.

Lemma constant_stands k c z : good_constant c -> constant_value k c = GOk z -> stands_for c z.
Proof.
  intros G H. destruct (c38 k G) as (w & S & _ & F & O). assert (D : fits k w \/ ~ fits k w) by (destruct k; cbn; lia).
  destruct D as [D|D]; [rewrite (F D) in H|rewrite (O D) in H; discriminate]. now injection H as <-.
Qed.

(** the constants of the file have the values of the definitions *)
Lemma const_value_is cfg ds n f : good_spec ds -> gen_code n cfg ds = GOk f ->
  forall m x w z, const_sem f m x = Some (w, z) -> value_is ds (VIdent x) z.
Proof.
  intros G H. apply gen_ok_parts in H as [H _]. unfold constants_token in H. cbn [constants ctx] in H. apply gmap_ok in H.
  assert (GV : forall x v, In (x, v) (const_defs ds) -> good_value v).
  { intros x v Hx. destruct (good_spec_values G) as [F _]. rewrite Forall_forall in F. now apply (F _ Hx). }
  assert (FC : forall x c, find (fun c => String.eqb (co_name c) x) (fi_consts f) = Some c ->
    exists v, first x (const_defs ds) v /\ constant_token (x, v) = GOk c).
  { intros x c. assert (K : forall l m, Forall2 (fun a b => constant_token a = GOk b) l m -> find (fun c => String.eqb (co_name c) x) m = Some c ->
      exists v, first x l v /\ constant_token (x, v) = GOk c).
    { intros l m F. induction F as [|[y v] c' l m h F IH]; cbn; [discriminate|].
      assert (N : co_name c' = y).
      { unfold constant_token in h. apply gbind_ok in h as (nm & HN & h). unfold ident_new in HN. destruct (ident_text _); [|discriminate]. injection HN as <-.
        rewrite str_chars in h. destruct (convert_value_token KU32 false v); [now injection h as <-| |discriminate..].
        apply gbind_ok in h as (t & _ & h). now injection h as <-. }
      rewrite N. destruct (String.eqb_spec y x) as [->|NE].
      - intros [= <-]. exists v. split; [exists [], l; now split|easy].
      - intros E. destruct (IH E) as (w & (a & b & -> & NI) & T). exists w. split; [|easy]. exists ((y, v) :: a), b. split; [easy|].
        intros [K|K]; [now apply NE|now apply NI]. }
    now apply K. }
  induction m as [|m IH]; intros x w z E; [discriminate|]. cbn in E.
  destruct (find _ _) as [c|] eqn:F; [|discriminate]. destruct (FC _ _ F) as (v & FV & T). pose proof (GV _ _ (first_in FV)) as gv.
  apply vi_const with (1 := FV).
  assert (K : exists k, convert_value_token k false v = GOk (co_value c)).
  { unfold constant_token in T. apply gbind_ok in T as (nm & _ & T). destruct (convert_value_token KU32 false v) eqn:EV; [injection T as <-; eauto| |discriminate..].
    apply gbind_ok in T as (t & ET & T). injection T as <-. eauto. }
  destruct K as [k K]. destruct v as [cc|y]; cbn in K.
  - apply gbind_ok in K as (z' & Hz & K). injection K as K. rewrite <- K in E. injection E as _ <-. apply vi_number. now apply constant_stands with k.
  - apply gbind_ok in K as (y' & Hy & K). injection K as K. unfold ident_new in Hy. destruct (ident_text _); [|discriminate]. injection Hy as Hy. rewrite str_chars in Hy. subst y'.
    rewrite <- K in E. destruct (const_sem f m y) as [[w' z']|] eqn:EC; [|discriminate]. destruct (Bool.eqb w' _); [|discriminate]. injection E as -> ->. now apply IH with w.
Qed.

Section Size.
  Variables (cfg : config) (ds : list definition) (n0 : nat) (f : file) (E : env).
  Hypothesis GS : good_spec ds.
  Hypothesis G : gen_code n0 cfg ds = GOk f.
  Hypothesis FE : file_env f = Some E.
  Hypothesis CO : compiles f.
  Let cx := ctx cfg ds.

  Definition takes (T : ty) (k : Z) : Prop := forall v bs, accepts E T v bs -> zlen bs = k.

  Lemma length_is v z len cast m : good_value v -> convert_value_token KUsize false v = GOk len -> array_len f len cast = Some m ->
    value_is ds v z -> z = Z.of_nat m.
  Proof.
    intros g H L V. unfold array_len in L. apply obind_some in L as (z' & HL & L). apply guard_some in L as [R [= <-]].
    assert (z = z'); [|lia]. apply (value_is_fun V). destruct v as [c|x]; cbn in H.
    - apply gbind_ok in H as (w & Hw & [= <-]). injection HL as <-. apply vi_number. now apply constant_stands with KUsize.
    - apply gbind_ok in H as (y & Hy & [= <-]). unfold ident_new in Hy. destruct (ident_text _); [|discriminate]. injection Hy as <-. rewrite str_chars in HL.
      apply guard_some in HL as [_ HL]. unfold const_of_name in HL. destruct (const_sem f _ x) as [[w z2]|] eqn:C; [|discriminate]. injection HL as <-.
      exact (const_value_is GS G C).
  Qed.

  (** the item that a name denotes *)
  Lemma named i T : In i (fi_types f) -> lookup E (item_name i) = Some T -> item_sem f i = Some T.
  Proof.
    intros Hi L. destruct (env_item FE L) as (j & Hj & EN & S). destruct CO as (ND & _).
    now rewrite <- (NoDup_map_inj ND Hj Hi EN).
  Qed.
  Lemma find_named i : In i (fi_types f) -> find_item f (item_name i) = Some i.
  Proof.
    intros Hi. unfold find_item. destruct (find _ _) as [j|] eqn:F.
    - apply find_some in F as [Hj N]. apply String.eqb_eq in N. destruct CO as (ND & _). f_equal. now apply (NoDup_map_inj ND).
    - apply find_none with (x := i) in F; [|easy]. now rewrite String.eqb_refl in F.
  Qed.

  Definition attr_fits (a : attr) (op : opaque_type) : Prop :=
    match op with OpNone => a = ANone \/ a = ASigned32 | OpFixed => a = AFixed | OpVariable => a = AVariable end.
  Definition sized (ty : rty) (op : opaque_type) (k : Z) : Prop :=
    (forall a T, attr_fits a op -> field_sem f a ty = Some T -> takes T k) /\
    match op with OpNone => True | OpFixed => exists t l c, ty = YArray t l c | OpVariable => False end.

  Lemma takes_all T k : takes T k -> forall m vs bs, accepts_all E (repeat T m) vs bs -> zlen bs = Z.of_nat m * k.
  Proof.
    intros H. induction m as [|m IH]; intros vs bs A; inversion A as [|? ? v vs' b bs' A1 A2]; subst; [reflexivity|]. rewrite zlen_app. rewrite (H _ _ A1), (IH _ _ A2). lia.
  Qed.
  Lemma word_len z w : unsigned 4 z w -> zlen w = 4.
  Proof. intros [L _]. unfold zlen. now rewrite L. Qed.
  Lemma sword_len z w : signed 4 z w -> zlen w = 4.
  Proof. intros [L _]. unfold zlen. now rewrite L. Qed.

  Lemma takes_units l : takes (TEnum (map (fun x => (x, VUnit)) l)) 4.
  Proof.
    intros v bs A. inversion A as [| | | | | | | | | | | | | | | | | | | |? i nm w U R N|? i nm t v' w bs' U R N|? i nm ts vs w bs' U R N|? i nm ts vs w bs' U R N| | | | | | |]; subst;
      try (rewrite nth_error_map in N; destruct (nth_error l i); discriminate). now apply word_len in U.
  Qed.

  Lemma enum_takes e T : enum_sem e = Some T -> takes T 4.
  Proof.
    unfold enum_sem. intros H. apply guard_some in H as [_ H].
    destruct (en_derive e); try discriminate; destruct (en_indexer e) as [ix|]; try discriminate; destruct (en_as_ref e); try discriminate.
    - apply obind_some in H as (? & _ & [= <-]). apply takes_units.
    - injection H as <-. apply takes_units.
    - unfold indexer_sem in H. apply obind_some in H as (names & _ & H). apply obind_some in H as (index & _ & H).
      apply obind_some in H as (other & _ & H). apply guard_some in H as [_ [= <-]]. intros v bs A.
      inversion A as [| | | | | | | | | | | | | | | | | | | | | | | | | | |? ? ? ? i z w nm ts vs bs' U W N| | |]; subst.
      rewrite nth_error_map in N. destruct (nth_error (enum_names e) i); [|discriminate]. injection N as _ <-.
      match goal with H : accepts_all E [] _ _ |- _ => inversion H; subst end. rewrite app_nil_r. now apply sword_len in U.
  Qed.
  Lemma signed_takes e T : signed_sem e = Some T -> takes T 4.
  Proof.
    unfold signed_sem. destruct (en_as_ref e), (en_try_from e); try discriminate. intros H. apply obind_some in H as (zs & _ & H).
    apply obind_some in H as (arms & _ & H). apply guard_some in H as [_ [= <-]]. intros v bs A. inversion A; subst. now apply sword_len with z.
  Qed.

  (** a name of a generated item *)
  Lemma named_sized i k : In i (fi_types f) -> (forall T, item_sem f i = Some T -> takes T k) ->
    (forall e T, i = IEnum e -> signed_sem e = Some T -> takes T k) -> sized (YName (item_name i)) OpNone k.
  Proof.
    intros Hi H HE. split; [|exact I]. intros a T [->| ->] S; cbn in S.
    - rewrite (find_named Hi) in S. injection S as <-. intros v bs A. inversion A as [| | | | | | | | | | | | | | | | | | | | | | | | | | | | | |? t ? ? L A']; subst.
      now apply (H _ (named Hi L)) in A'.
    - apply obind_some in S as (e & FI & S). unfold find_enum in FI. rewrite (find_named Hi) in FI. destruct i; try discriminate. injection FI as ->. now apply (HE e).
  Qed.

  Lemma int_takes s w : w <> W128 -> takes (TInt s w) (Z.of_nat (int_bytes w)).
  Proof. intros _ v bs A. inversion A as [| |? ? ? ? ? _ U _ _| | | | | | | | | | | | | | | | | | | | | | | | | | | |]; subst. destruct U as [L _]. unfold zlen. now rewrite L. Qed.

  Lemma base ty k : (forall T, ty_sem f ty = Some T -> takes T k) -> (forall x, ty <> YName x) -> sized ty OpNone k.
  Proof. intros H N. split; [|exact I]. intros a T [->| ->] S; [now apply H|]. cbn in S. destruct ty; try discriminate. now destruct (N x). Qed.

  Lemma name_of x y : upper_camel_case_ident x = GOk y -> y = camel x.
  Proof. intros H. now apply camel_back in H. Qed.

  Definition Pt (t : tyspec) (k : Z) : Prop := good_type t -> forall n ty op, convert_primitive_token (resolve_type_token cx n) t = GOk (ty, op) -> sized ty op k.
  Definition Pd (d : decl) (k : Z) : Prop := good_decl d -> forall n ty op, convert_type_token (resolve_type_token cx n) d = GOk (Some (ty, op)) -> sized ty op k.
  Definition Pa (l : list decl) (k : Z) : Prop := Forall good_decl l -> forall n x fs, gmap (struct_field cx n x) l = GOk fs ->
    forall Ts, omap (fun fd => field_sem f (fd_attr fd) (fd_ty fd)) fs = Some Ts -> forall vs bs, accepts_all E Ts vs bs -> zlen bs = k.

  Lemma field_size n x d fd T k : Pd d k -> good_decl d -> struct_field cx n x d = GOk fd -> field_sem f (fd_attr fd) (fd_ty fd) = Some T -> takes T k.
  Proof.
    intros P gd h S. unfold struct_field in h. destruct (decl_name d) as [nm|]; [|discriminate]. apply gbind_ok in h as (o & HO & h).
    apply gbind_ok in h as ([ty op] & HR & h). cbv zeta in h. apply gbind_ok in h as (idn & _ & h). injection h as <-. cbn [fd_attr fd_ty] in S.
    destruct o as [[ty' op']|]; [|discriminate]. injection HR as -> ->. destruct (P gd _ _ _ HO) as [Z1 Z2].
    match type of S with field_sem f ?a _ = _ => assert (AF : attr_fits a op) end.
    { destruct op; cbn; try easy. match goal with |- context [if ?b then ASigned32 else ANone] => destruct b; auto end. }
    destruct (tyspec_is x (decl_type d)); [|now apply (Z1 _ _ AF)].
    match type of S with field_sem f ?a _ = _ => destruct a eqn:EA; try discriminate end. cbn in S. destruct (ty_sem f ty) as [T'|] eqn:ST; [|discriminate]. injection S as <-.
    destruct op; try discriminate. intros v bs A. inversion A; subst. apply (Z1 ANone T') with v; [now left|easy|easy].
  Qed.

  Lemma sizes : (forall t k, fixed false ds t k -> Pt t k) /\ (forall d k, fixed_decl false ds d k -> Pd d k) /\
    (forall l k, fixed_all false ds l k -> Pa l k).
  Proof.
    apply (@fixed_ind3 false ds Pt Pd Pa); unfold Pt, Pd, Pa.
    - intros s _ n ty op [= <- <-]. apply base; [|discriminate]. intros T [= <-]. now apply (@int_takes s W32).
    - intros s _ n ty op [= <- <-]. apply base; [|discriminate]. intros T [= <-]. now apply (@int_takes s W64).
    - intros _ n ty op [= <- <-]. apply base; [|discriminate]. intros T [= <-] v bs A. inversion A; subst. now apply word_len with z.
    - intros _ n ty op [= <- <-]. apply base; [|discriminate]. intros T [= <-] v bs A. inversion A as [| | | |? ? [L _]| | | | | | | | | | | | | | | | | | | | | | | | | |]; subst. unfold zlen. now rewrite L.
    - intros _ n ty op [= <- <-]. apply base; [|discriminate]. intros T [= <-] v bs A. inversion A as [? U|? ? U| | | | | | | | | | | | | | | | | | | | | | | | | | | | |]; subst; now apply word_len in U.
    - intros s _ n ty op [= <- <-]. apply base; [|discriminate]. intros T [= <-]. now apply (@int_takes s W8).
    - intros s _ n ty op [= <- <-]. apply base; [|discriminate]. intros T [= <-]. now apply (@int_takes s W16).
    - (* enum *)
      intros x y l F _ n ty op H. cbn in H. destruct n as [|n]; [discriminate|]. cbn [resolve_type_token] in H.
      destruct (item_from G (first_in F)) as (its & TT & Hin). cbn [type_token_of] in TT. apply gbind_ok in TT as (e & HE & [= <-]).
      assert (K : (name <~ upper_camel_case_ident x;; GOk (YName name, OpNone)) = GOk (ty, op)).
      { destruct (remove_typedef _); [|easy]. change (typedefs cx) with (type_defs ds) in H. now rewrite (proj2 (assoc_first _ _ _) F) in H. }
      apply gbind_ok in K as (nm & HN & [= <- <-]). apply name_of in HN. subst nm.
      assert (EN : camel x = item_name (IEnum e)).
      { cbn. unfold convert_enum_token in HE. apply gbind_ok in HE as (ix & _ & HE). cbv zeta in HE. apply gbind_ok in HE as (nm & HN & HE). apply name_of in HN. subst nm.
        apply gbind_ok in HE as (vs & _ & HE). apply gbind_ok in HE as (items & _ & HE). destruct items as [|[d z] r]; [discriminate|]. now injection HE as <-. }
      rewrite EN. apply named_sized; [apply Hin; now left| |].
      + intros T S. cbn in S. now apply enum_takes in S.
      + intros e' T [= <-]. apply signed_takes.
    - (* struct *)
      intros x y l k F _ IH _ n ty op H. cbn in H. destruct n as [|n]; [discriminate|]. cbn [resolve_type_token] in H.
      destruct (item_from G (first_in F)) as (its & TT & Hin). cbn [type_token_of] in TT. apply gbind_ok in TT as (s & HE & [= <-]).
      assert (K : (name <~ upper_camel_case_ident x;; GOk (YName name, OpNone)) = GOk (ty, op)).
      { destruct (remove_typedef _); [|easy]. change (typedefs cx) with (type_defs ds) in H. now rewrite (proj2 (assoc_first _ _ _) F) in H. }
      apply gbind_ok in K as (nm & HN & [= <- <-]). apply name_of in HN. subst nm.
      unfold convert_struct_token in HE. apply gbind_ok in HE as (fs & HF & HE). apply gbind_ok in HE as (nm & HN & [= <-]). apply name_of in HN. subst nm.
      change (camel x) with (item_name (IStruct (StructItem (camel x) fs))). apply named_sized; [apply Hin; now left| |discriminate].
      intros T S. cbn in S. unfold struct_sem in S. cbn [st_fields] in S. destruct (omap _ fs) as [ts|] eqn:EO; [|discriminate]. injection S as <-.
      assert (E2 : omap (fun fd => field_sem f (fd_attr fd) (fd_ty fd)) fs = Some (map snd ts)).
      { clear - EO. revert ts EO. induction fs as [|fd fs IH]; cbn; intros ts EO; [now injection EO as <-|].
        destruct (field_sem f (fd_attr fd) (fd_ty fd)); [|discriminate]. cbn in EO. destruct (omap _ fs) as [m|]; [|discriminate]. injection EO as <-. cbn.
        now rewrite (IH _ eq_refl). }
      intros v bs A. inversion A; subst. apply IH with (2 := HF) (3 := E2) (vs := vs); [|easy].
      pose proof (good_types GS (first_in F)) as [[_ [_ GT]] _]. exact GT.
    - (* typedef *)
      intros x d k F _ IH _ n ty op H. cbn in H. destruct n as [|n]; [discriminate|]. cbn [resolve_type_token] in H.
      pose proof (good_types GS (first_in F)) as [gd _].
      destruct (remove_typedef (cx_config cx)) eqn:RT.
      + change (typedefs cx) with (type_defs ds) in H. rewrite (proj2 (assoc_first _ _ _) F) in H. apply gbind_ok in H as ([r|] & HO & [= ->]). now apply IH with (2 := HO).
      + apply gbind_ok in H as (nm & HN & [= <- <-]). apply name_of in HN. subst nm.
        destruct (item_from G (first_in F)) as (its & TT & Hin). cbn [type_token_of] in TT. change (ctx cfg ds) with cx in TT. rewrite RT in TT.
        apply gbind_ok in TT as (o & HO & TT). apply gbind_ok in TT as ([ty op] & HR & TT). destruct o as [r|]; [|discriminate]. injection HR as ->.
        destruct op; try discriminate. apply gbind_ok in TT as (nm & HN & [= <-]). apply name_of in HN. subst nm.
        change (camel x) with (item_name (IAlias (camel x) ty)). apply named_sized; [apply Hin; now left| |discriminate].
        intros T S. cbn in S. destruct (IH gd _ _ _ HO) as [Z1 _]. apply (Z1 ANone T); [now left|easy].
    - discriminate.
    - (* variable *)
      intros t y k _ IH gd n ty op H. cbn in H. apply gbind_ok in H as (r & H & [= ->]). apply IH with (2 := H). apply gd.
    - (* fixed array *)
      intros t y v z k _ IH V gd n ty op H. cbn in H. apply gbind_ok in H as ([ty1 op1] & H & K). apply gbind_ok in K as (len & HL & [= <- <-]).
      assert (gt : good_type t /\ good_value v) by (cbn in gd; tauto). destruct gt as [gt gv].
      destruct (IH gt _ _ _ H) as [Z1 Z2]. split; [|destruct op1; eauto].
      intros a T AF S. destruct op1; cbn in AF; [destruct AF as [->| ->]|subst a|easy].
      + cbn in S. apply obind_some in S as (T1 & S1 & S). apply obind_some in S as (m & L & [= <-]). rewrite (length_is gv HL L V).
        intros v' bs A. inversion A; subst. eapply takes_all; [|eassumption]. apply (Z1 ANone); [now left|easy].
      + discriminate.
      + destruct Z2 as (t' & l & c & ->). discriminate.
    - (* opaque *)
      intros y v z k V R M gd n ty op H. cbn in H. apply gbind_ok in H as (len & HL & [= <- <-]). split; [|eauto].
      intros a T -> S. cbn in S. destruct (array_len f len true) as [m|] eqn:L; [|discriminate]. injection S as <-.
      assert (gv : good_value v) by (cbn in gd; tauto). pose proof (length_is gv HL L V) as ->.
      intros v' bs A. inversion A as [| | | | | | | | | | | | | | | | | | | | | | | |? bs' p LB [P1 P2]| | | | | |]; subst. rewrite zlen_app.
      unfold zlen in *. lia.
    - discriminate.
    - intros _ n x fs [= <-] Ts [= <-] vs bs A. now inversion A.
    - intros d l k m _ IHd _ IHl gl n x fs H Ts O vs bs A. inversion gl as [|? ? gd gl']; subst. cbn in H. apply gbind_ok in H as (fd & HF & H). apply gbind_ok in H as (fs' & HR & [= <-]).
      cbn in O. destruct (field_sem f (fd_attr fd) (fd_ty fd)) as [T|] eqn:S; [|discriminate]. cbn in O. destruct (omap _ fs') as [Ts'|] eqn:O2; [|discriminate]. injection O as <-.
      inversion A as [|? ? v vs' b bs' A1 A2]; subst. rewrite zlen_app. pose proof (field_size IHd gd HF S A1) as ->. f_equal. now apply IHl with (2 := HR) (3 := O2) (4 := A2).
  Qed.
End Size.

Theorem generated_size cfg ds f E x k : good_spec ds -> generated cfg ds f E -> compiles f ->
  (exists td, first x (type_defs ds) td /\ is_typedef td = false) -> fixed false ds (TsIdent x) k ->
  exists y, camel_of x y /\ forall n bs v, from_bytes n E (TRef y) bs = Ok v -> zlen bs = k.
Proof.
  intros GS [G FE] CO (td & F & NT) FX. apply greturns_run in G as (n0 & G & _). exists (camel x). split; [apply camel_of_camel|].
  intros n bs v H. apply from_bytes_inv in H.
  assert (CV : resolve_type_token (ctx cfg ds) 1 x = GOk (YName (camel x), OpNone)).
  { destruct (item_from G (first_in F)) as (its & TT & _).
    assert (U : upper_camel_case_ident x = GOk (camel x)).
    { destruct td as [d|y l|y l|y [c specs dflt]]; [discriminate| | |]; cbn [type_token_of] in TT; apply gbind_ok in TT as (e & HE & _).
      - unfold convert_enum_token in HE. apply gbind_ok in HE as (ix & _ & HE). cbv zeta in HE. apply gbind_ok in HE as (nm & HN & HE). now rewrite <- (name_of HN).
      - unfold convert_struct_token in HE. apply gbind_ok in HE as (fs & HF & HE). apply gbind_ok in HE as (nm & HN & _). now rewrite <- (name_of HN).
      - unfold convert_union_token in HE. apply gbind_ok in HE as (nm & HN & HE). now rewrite <- (name_of HN). }
    cbn [resolve_type_token]. rewrite U. change (typedefs (ctx cfg ds)) with (type_defs ds). rewrite (proj2 (assoc_first _ _ _) F).
    destruct (remove_typedef _), td; easy. }
  assert (gt : good_type (TsIdent x)).
  { pose proof (good_types GS (first_in F)) as [g N]. destruct td as [d|y l|y l|y u]; [discriminate| | |]; cbn in N; injection N as ->; cbn; apply g. }
  destruct (proj1 (sizes GS G FE CO) _ _ FX gt 1%nat _ _ CV) as [Z1 _].
  inversion H as [| | | | | | | | | | | | | | | | | | | | | | | | | | | | | |? t ? ? L A']; subst.
  assert (FI : exists i, find_item f (camel x) = Some i).
  { destruct (env_item FE L) as (i & Hi & EN & _). exists i. rewrite <- EN. now apply find_named. }
  destruct FI as [i FI]. apply (Z1 ANone (TRef (camel x))) with v; [now left| |easy]. cbn. now rewrite FI.
Qed.

(** ** Structs with a field of their own type have no values *)
Fixpoint rsize (v : rval) : nat :=
  match v with
  | RSome v => S (rsize v)
  | RSeq vs | RVariant _ vs => S (fold_right (fun v n => (rsize v + n)%nat) O vs)
  | RMap kvs => S (fold_right (fun p n => (rsize (fst p) + rsize (snd p) + n)%nat) O kvs)
  | _ => 1%nat
  end.
Lemma rsize_in v vs : In v vs -> (rsize v <= fold_right (fun v n => (rsize v + n)%nat) O vs)%nat.
Proof. induction vs as [|w vs IH]; cbn; [easy|]. intros [->|H]; [lia|]. specialize (IH H). lia. Qed.

Lemma accepts_in E ts : forall vs bs, accepts_all E ts vs bs -> forall t, In t ts -> exists v b, In v vs /\ accepts E t v b.
Proof.
  induction ts as [|t ts IH]; intros vs bs A t' Ht; [easy|]. inversion A as [|? ? v vs' b bs' A1 A2]; subst. destruct Ht as [->|Ht].
  - exists v, b. split; [now left|easy].
  - destruct (IH _ _ A2 _ Ht) as (w & c & Hw & AW). exists w, c. split; [now right|easy].
Qed.

Lemma endless_read E x ts : lookup E x = Some (TStruct ts) -> In (TBox (TRef x)) (map snd ts) -> forall v bs, ~ accepts E (TRef x) v bs.
Proof.
  intros L I v. induction v as [v IH] using (well_founded_induction (Wf_nat.well_founded_ltof _ rsize)). intros bs A.
  inversion A as [| | | | | | | | | | | | | | | | | | | | | | | | | | | | | |? t ? ? L' A']; subst. rewrite L in L'. injection L' as <-.
  inversion A'; subst. match goal with H : accepts_all E _ vs _ |- _ => destruct (accepts_in H I) as (w & c & Hw & AW) end.
  inversion AW; subst. apply IH with (2 := ltac:(eassumption)). unfold Wf_nat.ltof. cbn. apply rsize_in in Hw. lia.
Qed.

Lemma zipM_takes {A B C} (g : A -> B -> res C) : forall l m r, zipM g l m = Ok r -> forall a, In a l -> exists b c, In b m /\ g a b = Ok c.
Proof.
  induction l as [|a l IH]; intros m r H a' Ha; [easy|]. destruct m as [|b m]; [discriminate|]. cbn in H.
  apply bind_ok in H as (c & HC & H). apply bind_ok in H as (cs & HR & _). destruct Ha as [->|Ha].
  - exists b, c. split; [now left|easy].
  - destruct (IH _ _ HR _ Ha) as (b' & c' & Hb & E). exists b', c'. split; [now right|easy].
Qed.
Lemma endless_write E x ts : lookup E x = Some (TStruct ts) -> In (TBox (TRef x)) (map snd ts) -> forall n v s, calls n E (TRef x) v <> Ok s.
Proof.
  intros L I n. induction n as [n IH] using (well_founded_induction Wf_nat.lt_wf). intros v s H.
  destruct n as [|n]; [discriminate|]. cbn [calls] in H. rewrite L in H. destruct n as [|n]; [discriminate|]. cbn [calls] in H.
  destruct v; try discriminate. apply bind_ok in H as (l & H & _).
  destruct (zipM_takes H I) as (w & c & _ & HW). destruct n as [|n]; [discriminate|]. cbn [calls] in HW.
  apply (IH n) in HW; [easy|lia].
Qed.

Theorem generated_endless cfg ds f E x y l a : generated cfg ds f E -> compiles f ->
  first x (type_defs ds) (TdStruct y l) -> In (DVariable (TsIdent x) a) l ->
  exists y', camel_of x y' /\ (forall n bs v, from_bytes n E (TRef y') bs <> Ok v) /\ (forall n v bs, to_bytes n E (TRef y') v <> Ok bs).
Proof.
  intros [G FE] CO F Hd. apply greturns_run in G as (n0 & G & _). exists (camel x). split; [apply camel_of_camel|].
  destruct (item_from G (first_in F)) as (its & TT & Hin). cbn [type_token_of] in TT. apply gbind_ok in TT as (s & HE & [= <-]).
  unfold convert_struct_token in HE. apply gbind_ok in HE as (fs & HF & HE). apply gbind_ok in HE as (nm & HN & [= <-]). pose proof (name_of HN) as ->.
  assert (Hi : In (IStruct (StructItem (camel x) fs)) (fi_types f)) by (apply Hin; now left).
  assert (L : exists ts, lookup E (camel x) = Some (TStruct ts) /\ In (TBox (TRef (camel x))) (map snd ts)).
  { unfold file_env in FE. pose proof FE as FE'. apply omap_some in FE'. destruct (Forall2_in_l FE' Hi) as ([z T] & HT & ES).
    cbn [item_sem item_name st_name] in ES. destruct (struct_sem f _) as [T'|] eqn:S; [|discriminate]. injection ES as <- <-.
    assert (LK : exists U, lookup E (camel x) = Some U).
    { unfold lookup. clear - HT. induction E as [|[y U] E0 IH]; [easy|]. cbn. destruct (String.eqb_spec (camel x) y); [eauto|]. destruct HT as [[= -> _]|HT]; [easy|auto]. }
    destruct LK as [U LK]. pose proof (named FE CO (i := IStruct (StructItem (camel x) fs)) Hi LK) as S'. cbn in S'. rewrite S in S'. injection S' as <-.
    unfold struct_sem in S. cbn [st_fields] in S. destruct (omap _ fs) as [ts|] eqn:EO; [|discriminate]. injection S as <-. exists ts. split; [easy|].
    apply gmap_ok in HF. destruct (Forall2_in_l HF Hd) as (fd & Hfd & SF). destruct (omap_in_l EO Hfd) as ([nm T] & HTs & SE).
    destruct (field_sem f (fd_attr fd) (fd_ty fd)) as [T'|] eqn:S; [|discriminate]. injection SE as _ <-.
    apply in_map_iff. exists (nm, T'). split; [|easy]. cbn [snd]. clear - SF S F HN. unfold struct_field in SF. cbn [decl_name convert_type_token convert_primitive_token] in SF.
    destruct n0 as [|n0]; [discriminate|]. cbn [resolve_type_token] in SF. rewrite HN in SF. change (typedefs (ctx cfg ds)) with (type_defs ds) in SF.
    rewrite (proj2 (assoc_first _ _ _) F) in SF.
    replace (if remove_typedef (cx_config (ctx cfg ds)) then _ else _) with (GOk (YName (camel x), OpNone)) in SF by (destruct (remove_typedef _); easy).
    cbn [gbind required] in SF. cbv zeta in SF. apply gbind_ok in SF as (idn & _ & SF). injection SF as <-. cbn [fd_attr fd_ty decl_type tyspec_is] in S.
    rewrite String.eqb_refl in S. match type of S with field_sem f ?a _ = _ => destruct a; try discriminate end. cbn in S.
    destruct (find_item f (camel x)); [|discriminate]. now injection S as <-. }
  destruct L as (ts & L & I). split.
  - intros n bs v H. apply from_bytes_inv in H. exact (endless_read L I H).
  - intros n v bs H. unfold to_bytes in H. apply bind_ok in H as (s & H & _). exact (endless_write L I H).
Qed.
