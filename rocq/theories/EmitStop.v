(** Decoding values of generated types terminates. *)
From Coq Require Import Permutation.
From Verif Require Import Base RustTypes SpecXdr SpecTypes XdrFacts SpecMisc SerModel DeModel SpecDecode DecProofs CodecProofs CodecLemmas
  Nom NomFacts Keyword Ast ParserModel SpecGrammar SpecParse
  ParseSound ParserLemmas ConstProofs CaseModel SpecCase CaseProofs RustAst GenModel SpecGen SpecItems GenFacts GenTotal GenPanic GenLemmas
  SpecXdl GenSem SpecWire WireBase WireEnum WireBack WireEnums SpecEmit EmitBase EmitProofs EmitFlags EmitItems EmitNames EmitRun.
Set Implicit Arguments.
Unset Strict Implicit.
Local Open Scope list_scope.

(** ** Where the generator puts Box, and no integers of 128 bits *)
Fixpoint boxfree (t : rty) : Prop :=
  match t with
  | YInt _ W128 => False
  | YArray t _ _ | YVec t | YOption t => boxfree t
  | YBox _ => False
  | _ => True
  end.
Definition boxes_ok (t : rty) : Prop :=
  boxfree t \/ exists t', boxfree t' /\ t = YBox t' /\
    match t' with YOption _ | YVec _ | YVecVarArray | YString | YArray (YInt _ _) _ _ => True | _ => False end.

Lemma primitive_boxfree (rt : string -> gres (rty * opaque_type)) t r :
  (forall x q, rt x = GOk q -> boxfree (fst q)) -> convert_primitive_token rt t = GOk r -> boxfree (fst r).
Proof. intros R H. destruct t; cbn in H; try discriminate; try (injection H as <-; exact I). now apply R in H. Qed.
Lemma token_boxfree (rt : string -> gres (rty * opaque_type)) d r :
  (forall x q, rt x = GOk q -> boxfree (fst q)) -> convert_type_token rt d = GOk (Some r) -> boxfree (fst r).
Proof.
  intros R H. destruct d; cbn [convert_type_token] in H; try discriminate.
  - apply gbind_ok in H as (q & H & [= <-]). now apply primitive_boxfree in H.
  - apply gbind_ok in H as ([ty op] & H & K). apply gbind_ok in K as (l & _ & [= <-]). now apply primitive_boxfree in H.
  - apply gbind_ok in H as ([ty op] & H & K). injection K as <-. apply primitive_boxfree in H; [|easy]. now destruct op.
  - apply gbind_ok in H as (l & _ & [= <-]). exact I.
  - now injection H as <-.
  - now injection H as <-.
  - apply gbind_ok in H as ([ty op] & H & K). injection K as <-. now apply primitive_boxfree in H.
Qed.
Lemma resolve_boxfree cx : forall n x q, resolve_type_token cx n x = GOk q -> boxfree (fst q).
Proof.
  induction n as [|n IH]; intros x q H; [discriminate|]. cbn [resolve_type_token] in H.
  assert (K : (name <~ upper_camel_case_ident x;; GOk (YName name, OpNone)) = GOk q -> boxfree (fst q)).
  { intros H'. apply gbind_ok in H' as (nm & _ & [= <-]). exact I. }
  destruct (remove_typedef _); [|auto]. destruct (assoc _ _ _) as [[d| | |]|]; auto.
  apply gbind_ok in H as ([r|] & H & [= <-]). now apply token_boxfree in H.
Qed.
Lemma decl_boxfree cx n d r : convert_type_token (resolve_type_token cx n) d = GOk (Some r) -> boxfree (fst r).
Proof. intros H. apply token_boxfree in H; [easy|]. intros x q. apply resolve_boxfree. Qed.

Lemma case_boxfree cx n v d c ct : convert_case_token cx n v d c = GOk ct ->
  Forall boxfree (va_tys (ct_variant ct)) /\ boxfree (ct_cond ct).
Proof.
  intros H. unfold convert_case_token in H. apply gbind_ok in H as (nm & HN & H). apply gbind_ok in H as (ty & HT & H).
  apply gbind_ok in H as (o & HO & H).
  assert (B : boxfree ty).
  { destruct (convert_primitive_token _ c) as [[t op]| | |] eqn:P; cbn in HT; try discriminate.
    - injection HT as <-. apply primitive_boxfree in P; [exact P|]. intros x q. apply resolve_boxfree.
    - destruct c; try discriminate. apply gbind_ok in HT as (x' & _ & [= <-]). exact I. }
  injection H as <-. destruct o as [[t op]|].
  - apply decl_boxfree in HO. cbn in HO.
    destruct (union_impl_union _); cbn [ct_variant va_tys ct_cond]; (split; [|easy]); repeat constructor; try easy;
      match goal with |- boxfree (if ?b then _ else _) => now destruct b end.
  - destruct (union_impl_union _); cbn [ct_variant va_tys ct_cond]; (split; [|easy]); repeat constructor; easy.
Qed.
Definition parts_boxfree (p : union_parts) : Prop :=
  Forall (fun va => Forall boxfree (va_tys va)) (up_specs p) /\ (forall c, up_cond p = Some c -> boxfree c).
Lemma values_boxfree cx n c : forall l s acc p, union_values cx n c s l acc = GOk p -> parts_boxfree acc -> parts_boxfree p.
Proof.
  induction l as [|[[e d] v] l IH]; intros s acc p H [A1 A2]; cbn [union_values] in H.
  - now injection H as <-.
  - apply gbind_ok in H as (fill & HF & H). apply gbind_ok in H as (ct & HC & H). apply gbind_ok in H as (bv & _ & H).
    apply gbind_ok in H as (s' & _ & H). apply IH in H; [exact H|]. apply case_boxfree in HC as [C1 C2]. split; cbn [up_specs up_cond].
    + apply Forall_app. split; [easy|]. apply Forall_app. split; [|now constructor]. destruct (union_complement_index _); [|injection HF as <-; constructor].
      apply gmap_ok in HF. apply Forall_forall. intros va Hva. destruct (Forall2_in_r HF Hva) as (z & _ & R). apply reserved_small in R. rewrite R. constructor.
    + now intros c' [= <-].
Qed.
Lemma bool_boxfree cx n c b specs acc p : bool_case cx n c b specs acc = GOk p -> parts_boxfree acc -> parts_boxfree p.
Proof.
  unfold bool_case. cbv zeta. intros H [A1 A2]. destruct (find _ specs) as [[vs d]|].
  - destruct (find _ vs) as [v|]; [|discriminate]. apply gbind_ok in H as (ct & HC & H). injection H as <-. apply case_boxfree in HC as [C1 C2].
    split; cbn [up_specs up_cond]; [|easy]. apply Forall_app. split; [easy|now constructor].
  - destruct (union_complement_index _); [|now injection H as <-]. apply gbind_ok in H as (r & HR & H). injection H as <-.
    split; cbn [up_specs up_cond]; [|easy]. apply Forall_app. split; [easy|constructor; [|easy]]. apply reserved_small in HR. rewrite HR. constructor.
Qed.
Lemma default_boxfree cx n o acc p : union_default cx n o acc = GOk p -> parts_boxfree acc -> parts_boxfree p.
Proof.
  unfold union_default. destruct o as [d|]; intros H [A1 A2]; [|now injection H as <-].
  apply gbind_ok in H as (t & HT & H). cbv zeta in H. injection H as <-. split; cbn [up_specs up_cond]; [|easy].
  apply Forall_app. split; [easy|]. constructor; [|easy]. cbn [va_tys].
  assert (T : Forall boxfree match t with Some (ty, _) => [ty] | None => [] end).
  { destruct t as [[ty op]|]; [|easy]. apply decl_boxfree in HT. now constructor. }
  destruct (union_impl_union _); [|exact T]. apply Forall_app. split; [|exact T]. destruct (up_cond acc); [|easy]. constructor; auto.
Qed.
Lemma union_boxfree cx n x u i : convert_union_token cx n x u = GOk i ->
  Forall (fun va => Forall boxfree (va_tys va)) (un_variants i) /\ forall ui d, un_union i = Some ui -> ui_disc ui = Some d -> boxfree d.
Proof.
  intros C. destruct u as [c specs dflt]. unfold convert_union_token in C. apply gbind_ok in C as (nm & _ & C).
  apply gbind_ok in C as (t & _ & C). apply gbind_ok in C as (p & HP & C). apply gbind_ok in C as (q & HQ & C). cbv zeta in C.
  destruct (up_default q) as [dv|]; [|discriminate]. injection C as <-. cbn [un_union un_variants].
  assert (N0 : parts_boxfree no_parts) by (split; [constructor|easy]).
  assert (NP : parts_boxfree p).
  { destruct t; try discriminate HP.
    - apply gbind_ok in HP as (vals & _ & HP). now apply values_boxfree in HP.
    - apply gbind_ok in HP as (p0 & H0 & HP). apply gbind_ok in HP as (p1 & H1 & HP). injection HP as <-.
      apply bool_boxfree in H0; [|easy]. apply bool_boxfree in H1 as [B1 B2]; [|easy]. split; [easy|]. now intros c' [= <-].
    - apply gbind_ok in HP as (vals & _ & HP). now apply values_boxfree in HP. }
  destruct (default_boxfree HQ NP) as [Q1 Q2]. split; [exact Q1|].
  intros ui d E. destruct (union_impl_union _); [|discriminate]. injection E as <-. apply Q2.
Qed.

(** the types written in an item *)
Definition item_tys (i : type_item) : list rty :=
  match i with
  | IAlias _ t => [t]
  | IEnum _ => []
  | IStruct s => map fd_ty (st_fields s)
  | IUnion u => flat_map va_tys (un_variants u)
  end.

Lemma item_boxes cfg ds n f i : gen_code n cfg ds = GOk f -> self_free ds -> In i (fi_types f) ->
  forall t, In t (item_tys i) -> boxes_ok t.
Proof.
  intros G SF Hi t Ht. destruct (item_back G Hi) as ([x [d|y l|y l|y u]] & its & Hd & T & HI); cbn [type_token_of] in T.
  - destruct (remove_typedef _); [injection T as <-; easy|]. apply gbind_ok in T as (o & HO & T). apply gbind_ok in T as ([ty op] & HR & T).
    destruct o as [r|]; [|discriminate]. injection HR as ->.
    destruct op; [|discriminate..]. apply gbind_ok in T as (z & _ & [= <-]). destruct HI as [<-|[]]. destruct Ht as [<-|[]]. left. now apply decl_boxfree in HO.
  - apply gbind_ok in T as (e & _ & [= <-]). now destruct HI as [<-|[]].
  - apply gbind_ok in T as (s & T & [= <-]). destruct HI as [<-|[]]. cbn [item_tys] in Ht. apply in_map_iff in Ht as (fd & <- & Hfd).
    unfold convert_struct_token in T. apply gbind_ok in T as (fs & HF & T). apply gbind_ok in T as (nm & HN & T). injection T as <-.
    cbn [st_fields] in Hfd. apply gmap_ok in HF. destruct (Forall2_in_r HF Hfd) as (d & Hdl & h).
    unfold struct_field in h. destruct (decl_name d); [|discriminate]. apply gbind_ok in h as (o & HO & h).
    apply gbind_ok in h as ([ty op] & HR & h). cbv zeta in h. apply gbind_ok in h as (idn & _ & h). injection h as <-. cbn [fd_ty].
    destruct o as [r|]; [|discriminate]. injection HR as ->.
    destruct (tyspec_is x (decl_type d)) eqn:TI; [|left; now apply decl_boxfree in HO].
    right. exists ty. pose proof (decl_boxfree HO) as BF. split; [exact BF|]. split; [easy|].
    assert (M : (exists y, d = DString y None \/ exists m, d = DString y m) \/ (exists y m, d = DOpaqueFixed y m) \/ (exists y m, d = DOpaqueVariable y m) \/ mentions d = Some (TsIdent x)).
    { unfold tyspec_is in TI. destruct (decl_type d) as [[]|] eqn:DT; try discriminate. apply String.eqb_eq in TI as <-.
      destruct d; cbn in DT |- *; try discriminate; eauto 8. }
    destruct M as [(z & [->|(m & ->)])|[(z & m & ->)|[(z & m & ->)|M]]]; [..|destruct (SF _ _ _ _ Hd Hdl M) as [(z & ->)|(z & m & ->)]]; cbn [convert_type_token] in HO.
    + now injection HO as <- _.
    + now injection HO as <- _.
    + apply gbind_ok in HO as (len & _ & HO). now injection HO as <- _.
    + now injection HO as <- _.
    + apply gbind_ok in HO as ([ty' op'] & HP & K). now injection K as <- _.
    + apply gbind_ok in HO as ([ty' op'] & HP & K). destruct op'; now injection K as <- _.
  - apply gbind_ok in T as (u' & T & [= <-]). destruct HI as [<-|[]]. cbn [item_tys] in Ht. apply in_flat_map in Ht as (va & Hva & Ht).
    destruct (union_boxfree T) as [B _]. rewrite Forall_forall in B. specialize (B _ Hva). rewrite Forall_forall in B. left. auto.
Qed.

Lemma rty_eqb_eq : forall a b, rty_eqb a b = true -> a = b.
Proof.
  induction a; intros b H; destruct b; cbn in H; try discriminate; try reflexivity.
  - apply andb_prop in H as [H1 H2]. apply eqb_prop in H1 as ->. destruct w, w0; try discriminate; reflexivity.
  - now apply String.eqb_eq in H as ->.
  - apply andb_prop in H as [H1 H2]. apply andb_prop in H1 as [H1 H3]. apply IHa in H1 as ->. apply eqb_prop in H3 as ->.
    destruct len, len0; try discriminate; [apply Z.eqb_eq in H2 as ->|apply String.eqb_eq in H2 as ->]; reflexivity.
  - now apply IHa in H as ->.
  - now apply IHa in H as ->.
  - now apply IHa in H as ->.
Qed.

Lemma forallb_ext {A} (g h : A -> bool) l : (forall a, g a = h a) -> forallb g l = forallb h l.
Proof. intros H. induction l; cbn; congruence. Qed.

(** ** Types that are guarded at every large enough depth *)
Section Eventually.
  Variable E : env.
  Definition ev (s : bool) (t : ty) : Prop := exists d0, forall d, (d0 <= d)%nat -> guarded d E s t = true.

  Lemma ev_step s t t' s' : (forall d, guarded (S d) E s t = guarded d E s' t') -> ev s' t' -> ev s t.
  Proof. intros H [d0 K]. exists (S d0). intros [|d] L; [lia|]. rewrite H. apply K. lia. Qed.
  Lemma ev_now s t : (forall d, guarded (S d) E s t = true) -> ev s t.
  Proof. intros H. exists 1%nat. intros [|d] L; [lia|]. apply H. Qed.
  Lemma ev_all {A} (g : nat -> A -> bool) l : (forall a, In a l -> exists d0, forall d, (d0 <= d)%nat -> g d a = true) ->
    exists d0, forall d, (d0 <= d)%nat -> forallb (g d) l = true.
  Proof.
    induction l as [|a l IH]; intros H; [now exists 0%nat|]. destruct (H a (or_introl eq_refl)) as [d1 K1]. destruct IH as [d2 K2]; [intros; apply H; now right|].
    exists (Nat.max d1 d2). intros d L. cbn. rewrite K1, K2 by lia. easy.
  Qed.

  Variable f : file.
  Lemma loose t : forall T, ty_sem f t = Some T -> ev false T.
  Proof.
    induction t; cbn [ty_sem]; intros T H; try (injection H as <-; apply ev_now; reflexivity).
    - destruct (find_item f x); [|discriminate]. injection H as <-. apply ev_now; reflexivity.
    - apply obind_some in H as (T1 & H1 & H). apply obind_some in H as (n & _ & H). injection H as <-. apply ev_step with T1 false; [reflexivity|auto].
    - destruct (ty_sem f t) as [T1|]; [|discriminate]. injection H as <-. apply ev_step with T1 false; [reflexivity|auto].
    - injection H as <-. exists 4%nat. intros [|[|[|[|d]]]] L; try lia. reflexivity.
    - destruct (ty_sem f t) as [T1|]; [|discriminate]. injection H as <-. apply ev_step with T1 false; [reflexivity|auto].
    - destruct (ty_sem f t) as [T1|]; [|discriminate]. injection H as <-. apply ev_step with T1 false; [reflexivity|auto].
    - injection H as <-. exists 4%nat. intros [|[|[|[|d]]]] L; try lia. reflexivity.
  Qed.
  Lemma tight t : forall T, ty_sem f t = Some T -> boxfree t ->
    (forall x U, In x (inline t) -> lookup E x = Some U -> ev true U) -> ev true T.
  Proof.
    induction t; cbn [ty_sem]; intros T H B N; try (injection H as <-; apply ev_now; reflexivity).
    - destruct (find_item f x); [|discriminate]. injection H as <-. destruct (lookup E x) as [U|] eqn:L.
      + apply ev_step with U true; [intros d; cbn; now rewrite L|]. apply N with x; [now left|easy].
      + apply ev_now. intros d. cbn. now rewrite L.
    - apply obind_some in H as (T1 & H1 & H). apply obind_some in H as (n & _ & H). injection H as <-. apply ev_step with T1 true; [reflexivity|auto].
    - destruct (ty_sem f t) as [T1|] eqn:H1; [|discriminate]. injection H as <-. apply ev_step with T1 false; [reflexivity|now apply loose in H1].
    - injection H as <-. exists 4%nat. intros [|[|[|[|d]]]] L; try lia. reflexivity.
    - destruct (ty_sem f t) as [T1|] eqn:H1; [|discriminate]. injection H as <-. apply ev_step with T1 false; [reflexivity|now apply loose in H1].
    - easy.
    - injection H as <-. exists 4%nat. intros [|[|[|[|d]]]] L; try lia. reflexivity.
  Qed.
  Lemma tight_boxes t T : ty_sem f t = Some T -> boxes_ok t -> (forall x U, In x (inline t) -> lookup E x = Some U -> ev true U) -> ev true T.
  Proof.
    intros H [B|(t' & B & C)] N; [now apply tight with t|]. assert (K : exists T', T = TBox T' /\ ev true T').
    { destruct C as [-> C]. cbn [ty_sem] in H. destruct (ty_sem f t') as [T'|] eqn:e; [|discriminate]. injection H as <-. exists T'. split; [easy|].
      assert (O : (exists t1, t' = YOption t1) \/ inline t' = []) by (destruct t' as [| | | | | |[]| | | | |]; try easy; eauto).
      destruct O as [(t1 & ->)|O]; [|apply tight with t'; [easy|easy|]; intros x U Hx; now rewrite O in Hx].
      cbn [ty_sem] in e. destruct (ty_sem f t1) as [T1|] eqn:e1; [|discriminate]. injection e as <-. apply ev_step with T1 false; [reflexivity|now apply loose in e1]. }
    destruct K as (T' & -> & K). now apply ev_step with T' true.
  Qed.
  Lemma tight_field a t T : field_sem f a t = Some T -> boxes_ok t -> (forall x U, In x (inline t) -> lookup E x = Some U -> ev true U) -> ev true T.
  Proof.
    destruct a; cbn [field_sem].
    - apply tight_boxes.
    - destruct t as [| | | | | |[[|] []| | | | | | | | | | |] len cast| | | | |]; try discriminate. destruct (array_len f len cast); [|discriminate]. intros [= <-] _ _. apply ev_now. reflexivity.
    - destruct t as [| | | | | | |[[|] []| | | | | | | | | | |]| | | |]; try discriminate. intros [= <-] _ _. apply ev_now. reflexivity.
    - destruct t; try discriminate. intros H _ _. apply obind_some in H as (e & _ & H). unfold signed_sem in H.
      destruct (en_as_ref e), (en_try_from e); try discriminate. apply obind_some in H as (zs & _ & H). apply obind_some in H as (arms & _ & H).
      apply guard_some in H as [_ H]. injection H as <-. apply ev_now. reflexivity.
  Qed.
  Lemma field_loose a t T : field_sem f a t = Some T -> ev false T.
  Proof.
    destruct a; cbn [field_sem].
    - apply loose.
    - destruct t as [| | | | | |[[|] []| | | | | | | | | | |] len cast| | | | |]; try discriminate. destruct (array_len f len cast); [|discriminate]. intros [= <-]. apply ev_now. reflexivity.
    - destruct t as [| | | | | | |[[|] []| | | | | | | | | | |]| | | |]; try discriminate. intros [= <-]. apply ev_now. reflexivity.
    - destruct t; try discriminate. intros H. apply obind_some in H as (e & _ & H). unfold signed_sem in H.
      destruct (en_as_ref e), (en_try_from e); try discriminate. apply obind_some in H as (zs & _ & H). apply obind_some in H as (arms & _ & H).
      apply guard_some in H as [_ H]. injection H as <-. apply ev_now. reflexivity.
  Qed.

  Lemma item_ev i T : item_sem f i = Some T -> (forall t, In t (item_tys i) -> boxes_ok t) ->
    (forall ui d, i = IUnion ui -> forall u, un_union ui = Some u -> ui_disc u = Some d -> boxfree d) ->
    (forall x U, In x (item_inline i) -> lookup E x = Some U -> ev true U) -> ev true T.
  Proof.
    intros S B D N. destruct i as [x t|e|s|u]; cbn [item_sem] in S; cbn [item_tys] in B; cbn [item_inline] in N.
    - apply tight_boxes with t; [easy|apply B; now left|easy].
    - unfold enum_sem in S. apply guard_some in S as [_ S].
      assert (P : ev true (TEnum (map (fun x => (x, VUnit)) (enum_names e)))).
      { apply ev_now. intros d. cbn. apply forallb_forall. intros p Hp. apply in_map_iff in Hp as (x & <- & _). easy. }
      destruct (en_derive e); try discriminate; destruct (en_indexer e) as [ix|] eqn:EX; try discriminate; destruct (en_as_ref e); try discriminate.
      + apply obind_some in S as (? & _ & S). now injection S as <-.
      + now injection S as <-.
      + unfold indexer_sem in S. apply obind_some in S as (names & _ & H). apply obind_some in H as (index & _ & H).
        apply obind_some in H as (other & _ & H). apply guard_some in H as [_ H]. injection H as <-.
        apply ev_now. intros d. cbn. apply forallb_forall. intros p Hp. apply in_map_iff in Hp as (x & <- & _). easy.
    - unfold struct_sem in S. destruct (omap _ _) as [l|] eqn:EO; [|discriminate]. injection S as <-.
      destruct (@ev_all _ (fun d (p : string * ty) => guarded d E true (snd p)) l) as [d0 K].
      { intros [x T] Hp. destruct (omap_in EO Hp) as (fd & Hfd & H). destruct (field_sem _ _ _) eqn:FS; [|discriminate]. injection H as _ <-.
        apply tight_field with (1 := FS); [apply B; now apply in_map|]. intros y U Hy. apply N. apply in_flat_map. eauto. }
      exists (S d0). intros [|d] L; [lia|]. cbn. apply K. lia.
    - unfold union_sem in S. apply guard_some in S as [DF S].
      destruct (un_derive u); try discriminate; destruct (un_indexer u) as [ix|] eqn:EX; try discriminate; destruct (un_union u) as [ui|] eqn:EU; try discriminate.
      + destruct (omap _ _) as [vs|] eqn:EV; [|discriminate]. injection S as <-.
        destruct (@ev_all _ (fun d (p : string * vshape) => match snd p with VUnit => true | VNewtype t => guarded d E false t | VTuple ts => forallb (guarded d E false) ts | VStruct ts => forallb (fun f => guarded d E false (snd f)) ts end) vs) as [d0 K].
        { intros [x sh] Hp. destruct (omap_in EV Hp) as (va & Hva & H). unfold serde_variant_sem in H. apply obind_some in H as (x'' & _ & H).
          destruct (va_tys va) as [|t [|]] eqn:VT; [destruct (va_attr va); try discriminate; injection H as _ <-; exists 0%nat; easy| |discriminate].
          destruct (field_sem _ _ _) eqn:FS; [|discriminate]. injection H as _ <-. cbn. now apply field_loose in FS. }
        exists (S d0). intros [|d] L; [lia|]. cbn. etransitivity; [|apply (K d); lia]. apply forallb_ext. now intros [x []].
      + apply obind_some in S as (vs & HV & S). unfold indexer_sem in S. apply obind_some in S as (names & _ & H). apply obind_some in H as (index & _ & H).
        apply obind_some in H as (other & _ & H). apply guard_some in H as [_ H]. injection H as <-.
        destruct (@ev_all _ (fun d (p : string * list ty) => forallb (guarded d E false) (snd p)) vs) as [d0 K].
        { intros [x ts] Hp. destruct (omap_in HV Hp) as (va & Hva & H). unfold indexer_variant_sem in H. apply obind_some in H as (? & _ & H).
          destruct (va_attr va); try discriminate. destruct (omap _ (va_tys va)) eqn:EO; [|discriminate]. injection H as _ <-. cbn [snd].
          apply ev_all. intros T HT. destruct (omap_in EO HT) as (t & _ & e). now apply loose in e. }
        exists (S d0). intros [|d] L; [lia|]. cbn. etransitivity; [|apply (K d); lia]. apply forallb_ext. now intros [x ts].
      + unfold union_impl_sem in S. apply obind_some in S as (disc & DI & H). apply obind_some in H as (dt & HD & H).
        apply obind_some in H as (variants & HV & H). apply obind_some in H as (names & HN & H). apply obind_some in H as (other & HO & H).
        apply guard_some in H as [NE H]. injection H as <-.
        assert (ED : ev true dt).
        { unfold default_fits in DF. apply existsb_exists in DF as (va & Hva & _). destruct (omap_in_l HV Hva) as (p0 & Hp0 & Ev). unfold union_variant_sem in Ev.
          apply obind_some in Ev as (x' & _ & Ev). destruct (va_attr va); try discriminate. destruct (va_tys va) as [|t ts] eqn:VT; [discriminate|].
          apply guard_some in Ev as [EQ Ev].
          apply tight with disc; [easy|now apply (D u disc eq_refl ui)|]. intros y U Hy. apply N. apply in_flat_map. exists va. split; [easy|].
          apply in_flat_map. exists t. rewrite VT. split; [now left|]. apply rty_eqb_eq in EQ as ->. easy. }
        destruct (@ev_all _ (fun d (p : string * option (list ty)) => match snd p with Some ts => forallb (guarded d E true) ts | None => true end) variants) as [d0 K].
        { intros [x o] Hp. destruct (omap_in HV Hp) as (va & Hva & Ev). unfold union_variant_sem in Ev. apply obind_some in Ev as (x' & _ & Ev).
          destruct (va_attr va); try discriminate. destruct (va_tys va) as [|t ts] eqn:VT; [discriminate|]. apply guard_some in Ev as [_ Ev].
          destruct (omap (ty_sem f) ts) as [Ts|] eqn:ET; [|discriminate]. injection Ev as _ <-. cbn [snd]. apply ev_all. intros T HT.
          destruct (omap_in ET HT) as (t' & Ht' & e). apply tight_boxes with t'; [easy| |].
          - apply B. apply in_flat_map. exists va. split; [easy|]. rewrite VT. now right.
          - intros y U Hy. apply N. apply in_flat_map. exists va. split; [easy|]. apply in_flat_map. exists t'. rewrite VT. split; [now right|easy]. }
        destruct ED as [d1 K1]. exists (S (Nat.max d0 d1)). intros [|d] L; [lia|]. cbn [guarded]. rewrite K1 by lia. cbn [andb].
        etransitivity; [|apply (K d); lia]. apply forallb_ext. now intros [x []].
  Qed.
End Eventually.

Lemma env_ev cfg ds n f E : gen_code n cfg ds = GOk f -> file_env f = Some E -> compiles f -> self_free ds ->
  forall x T, lookup E x = Some T -> ev E true T.
Proof.
  intros G FE (_ & _ & _ & (rank & R) & _) SF.
  assert (K : forall k x T, (rank x < k)%nat -> lookup E x = Some T -> ev E true T); [|intros x T; apply (K (S (rank x))); lia].
  induction k as [|k IH]; [lia|]. intros x T L LK. destruct (env_item FE LK) as (i & Hi & <- & S).
  apply item_ev with (1 := S).
  - intros t. now apply item_boxes with (1 := G).
  - intros ui d -> u EU. assert (Hu : In ui (unions f)) by (apply in_flat_map; exists (IUnion ui); split; [easy|now left]).
    destruct (union_item_from G Hu) as (x' & y & b & _ & C). destruct (union_boxfree C) as [_ B]. now apply B.
  - intros y U Hy LU. apply (IH y); [|easy]. pose proof (R _ _ Hi Hy). lia.
Qed.
Lemma env_bound E : (forall x T, lookup E x = Some T -> ev E true T) -> exists d0, forall d, (d0 <= d)%nat -> env_guarded d E.
Proof.
  intros H. unfold env_guarded, env_all.
  assert (K : forall l : env, exists d0, forall d, (d0 <= d)%nat -> forall x T, In x (map fst l) -> lookup E x = Some T -> guarded d E true T = true).
  { induction l as [|[y U] l [d1 K1]]; [now exists 0%nat|]. destruct (lookup E y) as [V|] eqn:L.
    - destruct (H _ _ L) as [d2 K2]. exists (Nat.max d1 d2). intros d M x T [<-|Hx] LX; [|apply K1 with x; [lia|easy|easy]].
      cbn in LX. rewrite L in LX. injection LX as <-. apply K2. lia.
    - exists d1. intros d M x T [<-|Hx] LX; [|now apply K1 with x]. cbn in LX. now rewrite L in LX. }
  destruct (K E) as [d0 K0]. exists d0. intros d M x T L. apply K0 with x; [easy| |easy].
  clear - L. unfold lookup in L. induction E as [|[y U] l IH] in L |- *; [discriminate|]. cbn in L. destruct (String.eqb_spec x y) as [->|]; [now left|right; auto].
Qed.

Theorem generated_terminates cfg ds f E x T i : greturns (fun n => gen_code n cfg ds) (GOk f) -> file_env f = Some E ->
  compiles f -> self_free ds -> lookup E x = Some T -> exists r, returns (fun n => from_bytes n E (TRef x) i) r.
Proof.
  intros G FE C SF L. apply greturns_run in G as (k & G & _). pose proof (env_ev G FE C SF) as EV. destruct (env_bound EV) as [d0 B].
  destruct (EV _ _ L) as [d1 K1]. set (d := S (Nat.max d0 d1)).
  destruct (@c28 d E (TRef x)) with (i := i) as (r & NF & N); [apply B; lia|cbn; rewrite L; apply K1; lia|]. exists r. split; [easy|]. eexists. exact N.
Qed.
