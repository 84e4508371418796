(** Encoding and decoding values of generated types: termination and panics. *)
From Coq Require Import Permutation.
From Verif Require Import Base RustTypes SpecXdr SpecTypes XdrFacts SpecMisc SerModel DeModel SpecDecode DecProofs CodecProofs CodecLemmas
  Nom NomFacts Keyword Ast ParserModel SpecGrammar SpecParse
  ParseSound ParserLemmas ConstProofs CaseModel SpecCase CaseProofs RustAst GenModel SpecGen SpecItems GenFacts GenTotal GenPanic GenLemmas
  SpecXdl GenSem SpecWire WireBase WireEnum WireBack WireEnums SpecEmit EmitBase EmitProofs EmitFlags EmitItems EmitNames.
Set Implicit Arguments.
Unset Strict Implicit.
Local Open Scope list_scope.


(** the items of a file and its environment *)
Lemma env_item f E x T : file_env f = Some E -> lookup E x = Some T ->
  exists i, In i (fi_types f) /\ item_name i = x /\ item_sem f i = Some T.
Proof.
  unfold file_env. intros H L. apply omap_some in H. unfold lookup in L. revert L. induction H as [|i [y U] is E h H IH]; intros L; [discriminate|].
  cbn in L. destruct (item_sem f i) as [U'|] eqn:e; [|discriminate]. injection h as <- <-. destruct (String.eqb_spec x (item_name i)) as [->|N].
  - injection L as <-. exists i. split; [now left|]. easy.
  - destruct (IH L) as (j & Hj & R). exists j. split; [now right|easy].
Qed.

(** ** Deserialization without panics *)
Lemma omap_in {A B} (g : A -> option B) l bs b : omap g l = Some bs -> In b bs -> exists a, In a l /\ g a = Some b.
Proof. intros H Hb. apply omap_some in H. destruct (Forall2_in_r H Hb) as (a & Ha & E). eauto. Qed.
Lemma omap_in_l {A B} (g : A -> option B) l bs a : omap g l = Some bs -> In a l -> exists b, In b bs /\ g a = Some b.
Proof. intros H Ha. apply omap_some in H. destruct (Forall2_in_l H Ha) as (b & Hb & E). eauto. Qed.

Lemma fold_all {A} (P : A -> Prop) l : (forall a, In a l -> P a) -> fold_right (fun a Q => P a /\ Q) True l.
Proof. induction l; cbn; [easy|]. intros H. split; [apply H; now left|apply IHl; intros; apply H; now right]. Qed.

Section Tables.
  Variable f : file.

  Lemma ty_total t : forall T, ty_sem f t = Some T -> tables_total T.
  Proof.
    induction t; cbn [ty_sem]; intros T H; try (injection H as <-; easy).
    - destruct (find_item f x); [|discriminate]. now injection H as <-.
    - apply obind_some in H as (T1 & H1 & H). apply obind_some in H as (n & _ & H). injection H as <-. cbn. now apply IHt.
    - destruct (ty_sem f t); [|discriminate]. injection H as <-. cbn. now apply IHt.
    - destruct (ty_sem f t); [|discriminate]. injection H as <-. cbn. now apply IHt.
    - destruct (ty_sem f t); [|discriminate]. injection H as <-. cbn. now apply IHt.
  Qed.
  Lemma field_total a t T : field_sem f a t = Some T -> tables_total T.
  Proof.
    destruct a; cbn [field_sem].
    - apply ty_total.
    - destruct t as [| | | | | |[[|] []| | | | | | | | | | |] len cast| | | | |]; try discriminate. destruct (array_len f len cast); [|discriminate]. intros [= <-]. easy.
    - destruct t as [| | | | | | |[[|] []| | | | | | | | | | |]| | | |]; try discriminate. intros [= <-]. easy.
    - destruct t; try discriminate. intros H. apply obind_some in H as (e & _ & H). unfold signed_sem in H.
      destruct (en_as_ref e), (en_try_from e); try discriminate. apply obind_some in H as (zs & _ & H). apply obind_some in H as (arms & _ & H).
      apply guard_some in H as [_ H]. injection H as <-. easy.
  Qed.
  Lemma omap_total_all ts Ts : omap (ty_sem f) ts = Some Ts -> length Ts = length ts /\ fold_right (fun t P => tables_total t /\ P) True Ts.
  Proof.
    intros H. split; [apply omap_some in H; clear - H; induction H; cbn; congruence|].
    apply fold_all. intros T HT. destruct (omap_in H HT) as (t & _ & E). now apply ty_total with t.
  Qed.

  (** the tables of an indexer or union name variants of the item *)
  Definition names_ok (vs : list string) (ns : list vtoken) : Prop := forall x, In (TokId x) ns -> In x vs.
  Definition indexer_names (ix : indexer_impl) : list vtoken :=
    map snd (ix_names ix) ++ match ix_other ix with Some v => [v] | None => [] end.

  Lemma indexer_total vs ix T : indexer_sem vs ix = Some T -> names_ok (map fst vs) (indexer_names ix) ->
    (forall p, In p vs -> (length (snd p) <= 9)%nat /\ fold_right (fun t P => tables_total t /\ P) True (snd p)) -> tables_total T.
  Proof.
    intros H N V. unfold indexer_sem in H. apply obind_some in H as (names & HN & H). apply obind_some in H as (index & _ & H).
    apply obind_some in H as (other & HO & H). apply guard_some in H as [_ H]. injection H as <-. cbn [tables_total].
    split; [split|].
    - destruct (ix_other ix) as [v|]; [|now injection HO as <-]. destruct (token_id v); [|discriminate]. now injection HO as <-.
    - intros k nm W.
      assert (I : In nm (map fst vs)).
      { apply N. unfold indexer_names. apply in_or_app. destruct (assoc Z.eqb k names) as [nm'|] eqn:A; cbn in W.
        - injection W as ->. left. assert (I : In (k, nm) names).
          { clear - A. induction names as [|[k' b] l IH]; [discriminate|]. cbn in A. destruct (Z.eqb_spec k k') as [->|]; [injection A as ->; now left|right; auto]. }
          destruct (omap_in HN I) as ([k' v] & Hv & E). cbn in E. destruct v as [|s]; [discriminate|]. injection E as -> ->.
          apply in_map_iff. now exists (k, TokId nm).
        - subst other. right. destruct (ix_other ix) as [v|]; [|discriminate]. destruct v as [|s]; [discriminate|]. injection HO as ->. now left. }
      apply in_map_iff in I as ([nm' b] & <- & I). now exists b.
    - induction vs as [|[nm ts] vs IH]; [easy|]. cbn. split; [exact (V _ (or_introl eq_refl))|].
      clear IH. clear N HN HO. induction vs as [|[nm' ts'] vs IH]; [easy|]. cbn. split; [apply (V (nm', ts')); right; now left|].
      apply IH. intros p [<-|Hp]; [apply V; now left|apply V; right; now right].
  Qed.

  Definition union_names (ui : union_impl) : list vtoken :=
    map snd (ui_names ui) ++ match ui_other ui with Some (Some v) => [v] | _ => [] end.
  Lemma assoc_mem {A B} (eqb : A -> A -> bool) k (l : list (A * B)) b : assoc eqb k l = Some b -> exists k', In (k', b) l.
  Proof.
    induction l as [|[k' b'] l IH]; cbn; [discriminate|]. destruct (eqb k k'); [intros [= ->]; exists k'; now left|].
    intros H. destruct (IH H) as [j Hj]. exists j. now right.
  Qed.
  Lemma union_total vs ui T : union_impl_sem f vs ui = Some T -> names_ok (variant_names vs) (union_names ui) ->
    (forall va, In va vs -> (length (va_tys va) <= 10)%nat) -> tables_total T.
  Proof.
    intros H N V. unfold union_impl_sem in H. apply obind_some in H as (disc & _ & H). apply obind_some in H as (dt & HD & H).
    apply obind_some in H as (variants & HV & H). apply obind_some in H as (names & HN & H). apply obind_some in H as (other & HO & H).
    apply guard_some in H as [_ H]. injection H as <-. cbn [tables_total].
    assert (VF : forall x o, In (x, o) variants -> exists ts, o = Some ts /\ (length ts <= 9)%nat /\ fold_right (fun t P => tables_total t /\ P) True ts).
    { intros x o Hx. destruct (omap_in HV Hx) as (va & Hva & E). unfold union_variant_sem in E. apply obind_some in E as (x' & _ & E).
      destruct (va_attr va); try discriminate. pose proof (V _ Hva) as L. destruct (va_tys va) as [|t ts]; [discriminate|]. apply guard_some in E as [_ E].
      destruct (omap (ty_sem f) ts) as [Ts|] eqn:ET; [|discriminate]. injection E as <- <-. exists Ts. split; [easy|].
      apply omap_total_all in ET as [EL F]. split; [cbn in L; lia|exact F]. }
    assert (VN : forall x, In x (variant_names vs) -> exists o, In (x, o) variants).
    { intros x Hx. apply in_flat_map in Hx as (va & Hva & Hx). destruct (omap_in_l HV Hva) as ([x' o] & Hxo & E). unfold union_variant_sem in E.
      destruct (va_name va) as [|y]; [easy|]. destruct Hx as [<-|[]]. cbn [token_id obind] in E. exists o.
      destruct (va_attr va); try discriminate. destruct (va_tys va) as [|t ts]; [discriminate|]. apply guard_some in E as [_ E].
      destruct (omap (ty_sem f) ts); [|discriminate]. injection E as <- _. exact Hxo. }
    split; [split|split].
    - destruct (ui_other ui) as [[v|]|]; [destruct (token_id v); [|discriminate]; now injection HO as <-|now injection HO as <-|].
      apply guard_some in HO as [_ HO]. now injection HO as <-.
    - intros k nm W. apply VN, N. unfold union_names. apply in_or_app. destruct (assoc rval_eqb k names) as [nm'|] eqn:A; cbn in W.
      + injection W as ->. left. apply assoc_mem in A as [k' I]. destruct (omap_in HN I) as ([pt v] & Hv & E). cbn in E.
        apply obind_some in E as (rv & _ & E). destruct v as [|s]; [discriminate|]. injection E as _ ->. apply in_map_iff. now exists (pt, TokId nm).
      + subst other. right. destruct (ui_other ui) as [[v|]|]; [|discriminate|apply guard_some in HO as [_ HO]; discriminate].
        destruct v as [|s]; [discriminate|]. injection HO as ->. now left.
    - now apply ty_total with disc.
    - clear - VF. induction variants as [|[x o] l IH]; [easy|]. cbn. split.
      + destruct (VF x o (or_introl eq_refl)) as (ts & -> & L). exact L.
      + apply IH. intros; apply VF with x0. now right.
  Qed.
End Tables.

(** what the generator puts in the tables *)
Definition parts_named (p : union_parts) : Prop :=
  (forall nm, In nm (map snd (up_names p)) \/ In nm (map snd (up_values p)) -> exists va, In va (up_specs p) /\ va_name va = nm) /\
  forall va, In va (up_specs p) -> (length (va_tys va) <= 2)%nat.
Lemma case_small cx n v d c ct : convert_case_token cx n v d c = GOk ct -> (length (va_tys (ct_variant ct)) <= 2)%nat.
Proof.
  intros H. unfold convert_case_token in H. apply gbind_ok in H as (nm & HN & H). apply gbind_ok in H as (ty & _ & H).
  apply gbind_ok in H as (o & _ & H). injection H as <-. destruct o as [[t op]|]; destruct (union_impl_union (cx_config cx)); cbn; lia.
Qed.
Lemma reserved_small z va : reserved_variant z = GOk va -> va_tys va = [].
Proof. unfold reserved_variant. intros H. apply gbind_ok in H as (r & _ & [= <-]). easy. Qed.
Lemma values_named cx n c : forall l s acc p, union_values cx n c s l acc = GOk p -> parts_named acc -> parts_named p.
Proof.
  induction l as [|[[e d] v] l IH]; intros s acc p H [A1 A2]; cbn [union_values] in H.
  - now injection H as <-.
  - apply gbind_ok in H as (fill & HF & H). apply gbind_ok in H as (ct & HC & H). apply gbind_ok in H as (bv & HB & H).
    apply gbind_ok in H as (s' & _ & H). apply IH in H; [exact H|]. split; cbn [up_specs up_names up_values].
    + assert (BV : forall nm, In nm (map snd bv) -> nm = ct_name ct).
      { intros nm Hn. destruct (is_enum_type cx c).
        - destruct c; try (injection HB as <-; easy). apply gbind_ok in HB as (ci & _ & HB). destruct v; [injection HB as <-; easy|].
          apply gbind_ok in HB as (xi & _ & HB). injection HB as <-. now destruct Hn as [<-|[]].
        - injection HB as <-. now destruct Hn as [<-|[]]. }
      assert (CT : exists va, In va (up_specs acc ++ fill ++ [ct_variant ct]) /\ va_name va = ct_name ct).
      { exists (ct_variant ct). split; [apply in_or_app; right; apply in_or_app; right; now left|]. now destruct (case_shape HC). }
      assert (OLD : forall nm, (exists va, In va (up_specs acc) /\ va_name va = nm) -> exists va, In va (up_specs acc ++ fill ++ [ct_variant ct]) /\ va_name va = nm).
      { intros nm (va & Hva & E). exists va. split; [apply in_or_app; now left|exact E]. }
      intros nm [Hn|Hn]; rewrite map_app in Hn; apply in_app_or in Hn as [Hn|Hn].
      * apply OLD, A1. now left.
      * cbn in Hn. destruct Hn as [<-|[]]. exact CT.
      * apply OLD, A1. now right.
      * now rewrite (BV nm Hn).
    + intros va Hva. apply in_app_or in Hva as [Hva|Hva]; [now apply A2|]. apply in_app_or in Hva as [Hva|[<-|[]]]; [|now apply case_small with (1 := HC)].
      destruct (union_complement_index _); [|injection HF as <-; easy]. apply gmap_ok in HF. destruct (Forall2_in_r HF Hva) as (z & _ & R).
      apply reserved_small in R. rewrite R. cbn. lia.
Qed.
Lemma bool_named cx n c b specs acc p : bool_case cx n c b specs acc = GOk p -> parts_named acc -> parts_named p.
Proof.
  unfold bool_case. cbv zeta. intros H [A1 A2]. destruct (find _ specs) as [[vs d]|].
  - destruct (find _ vs) as [v|]; [|discriminate]. apply gbind_ok in H as (ct & HC & H). injection H as <-. split; cbn [up_specs up_names up_values].
    + assert (CT : exists va, In va (up_specs acc ++ [ct_variant ct]) /\ va_name va = ct_name ct).
      { exists (ct_variant ct). split; [apply in_or_app; right; now left|]. now destruct (case_shape HC). }
      assert (OLD : forall nm, (exists va, In va (up_specs acc) /\ va_name va = nm) -> exists va, In va (up_specs acc ++ [ct_variant ct]) /\ va_name va = nm).
      { intros nm (va & Hva & E). exists va. split; [apply in_or_app; now left|exact E]. }
      intros nm [Hn|Hn]; rewrite map_app in Hn; apply in_app_or in Hn as [Hn|[<-|[]]].
      * apply OLD, A1. now left.
      * exact CT.
      * apply OLD, A1. now right.
      * exact CT.
    + intros va Hva. apply in_app_or in Hva as [Hva|[<-|[]]]; [now apply A2|now apply case_small with (1 := HC)].
  - destruct (union_complement_index _); [|now injection H as <-]. apply gbind_ok in H as (r & HR & H). injection H as <-.
    split; cbn [up_specs up_names up_values].
    + intros nm Hn. destruct (A1 nm Hn) as (va & Hva & E). exists va. split; [apply in_or_app; now left|exact E].
    + intros va Hva. apply in_app_or in Hva as [Hva|[<-|[]]]; [now apply A2|]. apply reserved_small in HR. rewrite HR. cbn. lia.
Qed.
Lemma default_named cx n o acc p : union_default cx n o acc = GOk p -> parts_named acc ->
  parts_named p /\ (o <> None -> exists va, In va (up_specs p) /\ va_name va = default_id).
Proof.
  unfold union_default. destruct o as [d|]; intros H [A1 A2]; [|now injection H as <-].
  apply gbind_ok in H as (t & _ & H). cbv zeta in H. injection H as <-. split; [split|]; cbn [up_specs up_names up_values].
  - intros nm Hn. destruct (A1 nm Hn) as (va & Hva & E). exists va. split; [apply in_or_app; now left|exact E].
  - intros va Hva. apply in_app_or in Hva as [Hva|[<-|[]]]; [now apply A2|]. cbn [va_tys].
    destruct (union_impl_union _), (up_cond acc), t as [[ty op]|]; cbn; lia.
  - intros _. eexists. split; [apply in_or_app; right; now left|easy].
Qed.

Lemma variant_in vs va x : In va vs -> va_name va = TokId x -> In x (variant_names vs).
Proof. intros H E. apply in_flat_map. exists va. split; [easy|]. rewrite E. now left. Qed.

Lemma union_tables cx n x u i : convert_union_token cx n x u = GOk i ->
  (forall ix, un_indexer i = Some ix -> names_ok (variant_names (un_variants i)) (indexer_names ix) /\
     (forall c specs, u = UBody c specs None -> ix_unimplemented ix = false)) /\
  (forall ui, un_union i = Some ui -> names_ok (variant_names (un_variants i)) (union_names ui)) /\
  forall va, In va (un_variants i) -> (length (va_tys va) <= 2)%nat.
Proof.
  intros C. destruct u as [c specs dflt]. unfold convert_union_token in C. apply gbind_ok in C as (nm & _ & C).
  apply gbind_ok in C as (t & _ & C). apply gbind_ok in C as (p & HP & C). apply gbind_ok in C as (q & HQ & C). cbv zeta in C.
  destruct (up_default q) as [dv|]; [|discriminate]. injection C as <-. cbn [un_indexer un_union un_variants].
  assert (N0 : parts_named no_parts) by (split; [intros nm' [[]|[]]|easy]).
  assert (NP : parts_named p).
  { destruct t; try discriminate HP.
    - apply gbind_ok in HP as (vals & _ & HP). now apply values_named in HP.
    - apply gbind_ok in HP as (p0 & H0 & HP). apply gbind_ok in HP as (p1 & H1 & HP). injection HP as <-.
      apply bool_named in H0; [|easy]. now apply bool_named in H1.
    - apply gbind_ok in HP as (vals & _ & HP). now apply values_named in HP. }
  destruct (default_named HQ NP) as ([Q1 Q2] & Q3). split; [|split; [|exact Q2]].
  - intros ix E. destruct (union_impl_indexer _); [|discriminate]. injection E as <-. split; [|intros c' s' [= _ _ ->]; easy].
    intros y Hy. unfold indexer_names in Hy. cbn [ix_names ix_other] in Hy. apply in_app_or in Hy as [Hy|Hy].
    + destruct (Q1 _ (or_introl Hy)) as (va & Hva & E). now apply variant_in with va.
    + destruct dflt as [d|]; [|easy]. destruct Hy as [Hy|[]]. destruct Q3 as (va & Hva & E); [easy|]. apply variant_in with va; [easy|]. now rewrite E.
  - intros ui E. destruct (union_impl_union _); [|discriminate]. injection E as <-. intros y Hy. unfold union_names in Hy. cbn [ui_names ui_other] in Hy.
    apply in_app_or in Hy as [Hy|Hy].
    + destruct (Q1 _ (or_intror Hy)) as (va & Hva & E). now apply variant_in with va.
    + assert (K : dflt <> None /\ TokId y = default_id) by (destruct t, dflt; try easy; destruct Hy as [Hy|[]]; easy).
      destruct K as [K Ky]. destruct (Q3 K) as (va & Hva & E). apply variant_in with va; [easy|]. now rewrite E, Ky.
Qed.

Lemma enum_tables cfg ds n x l e : convert_enum_token (ctx cfg ds) n x l = GOk e ->
  forall ix, en_indexer e = Some ix -> names_ok (enum_names e) (indexer_names ix) /\ ix_unimplemented ix = false.
Proof.
  intros H ix E. unfold convert_enum_token in H. apply gbind_ok in H as (idx & _ & H). cbv zeta in H.
  apply gbind_ok in H as (nm & _ & H). apply gbind_ok in H as (vs & HV & H). apply gbind_ok in H as (items & HI & H). apply gmap_ok in HI.
  destruct (enum_values_back HV) as (_ & I & _).
  assert (K : forall y z, In (y, z) items -> In y (map fst vs)).
  { intros y z Hy. destruct (Forall2_in_r HI Hy) as (p & Hp & C). apply gbind_ok in C as (c & Hc & C). injection C as -> _. apply camel_back in Hc as [-> _].
    change (camel (snd p)) with (fst (shown p)). now apply in_map, I. }
  destruct items as [|[d z] rest] eqn:EI; [discriminate|]. rewrite <- EI in *. destruct (enum_impl_indexer _); [|injection H as <-; discriminate].
  injection H as <-. cbn in E. injection E as <-. split; [|easy]. intros y Hy. unfold indexer_names in Hy. cbn [ix_names ix_other] in Hy. unfold enum_names. cbn [en_values].
  apply in_app_or in Hy as [Hy|[Hy|[]]].
  - rewrite !map_map in Hy. apply in_map_iff in Hy as ([y' z'] & E' & Hy). cbn in E'. injection E' as ->. now apply K with z'.
  - injection Hy as <-. apply K with z. rewrite EI. now left.
Qed.

Lemma struct_total f s T : struct_sem f s = Some T -> tables_total T.
Proof.
  unfold struct_sem. destruct (omap _ _) as [l|] eqn:E; [|discriminate]. intros [= <-]. cbn.
  assert (F : forall p, In p l -> tables_total (snd p)).
  { intros [x T] Hp. destruct (omap_in E Hp) as (fd & _ & H). destruct (field_sem _ _ _) eqn:FS; [|discriminate]. injection H as _ <-. now apply field_total in FS. }
  clear - F. induction l as [|[x t] l IH]; [easy|]. cbn. split; [apply (F _ (or_introl eq_refl))|apply IH; intros; apply F; now right].
Qed.

Lemma item_total cfg ds n f i T : gen_code n cfg ds = GOk f -> In i (fi_types f) -> item_sem f i = Some T -> tables_total T.
Proof.
  intros G Hi S. destruct i as [x t|e|s|u]; cbn [item_sem] in S.
  - now apply ty_total in S.
  - assert (He : In e (enums f)) by (apply in_flat_map; exists (IEnum e); split; [easy|now left]).
    destruct (enum_item_from G He) as (x & y & l & _ & C). unfold enum_sem in S. apply guard_some in S as [_ S].
    assert (P : tables_total (TEnum (map (fun x => (x, VUnit)) (enum_names e)))).
    { cbn. generalize (enum_names e). induction l0; cbn; easy. }
    destruct (en_derive e); try discriminate; destruct (en_indexer e) as [ix|] eqn:EX; try discriminate; destruct (en_as_ref e); try discriminate.
    + apply obind_some in S as (? & _ & S). now injection S as <-.
    + now injection S as <-.
    + destruct (enum_tables C EX) as [N _]. apply indexer_total with (1 := S).
      * rewrite map_map. cbn. now rewrite map_id.
      * intros p Hp. apply in_map_iff in Hp as (y' & <- & _). cbn. split; [lia|easy].
  - now apply struct_total in S.
  - assert (Hu : In u (unions f)) by (apply in_flat_map; exists (IUnion u); split; [easy|now left]).
    destruct (union_item_from G Hu) as (x & y & b & _ & C). destruct (union_tables C) as (IX & UN & SM). unfold union_sem in S. apply guard_some in S as [_ S].
    destruct (un_derive u); try discriminate; destruct (un_indexer u) as [ix|] eqn:EX; try discriminate; destruct (un_union u) as [ui|] eqn:EU; try discriminate.
    + destruct (omap _ _) as [vs|] eqn:EV; [|discriminate]. injection S as <-. cbn.
      assert (F : forall p, In p vs -> match snd p with VUnit => True | VNewtype t => tables_total t | _ => False end).
      { intros [x' sh] Hp. destruct (omap_in EV Hp) as (va & _ & H). unfold serde_variant_sem in H. apply obind_some in H as (x'' & _ & H).
        destruct (va_tys va) as [|t [|]]; [destruct (va_attr va); try discriminate; now injection H as _ <-| |discriminate].
        destruct (field_sem _ _ _) eqn:FS; [|discriminate]. injection H as _ <-. cbn. now apply field_total in FS. }
      clear - F. induction vs as [|[x' sh] vs IH]; [easy|]. cbn. split; [|apply IH; intros; apply F; now right].
      pose proof (F _ (or_introl eq_refl)) as K. cbn in K. now destruct sh.
    + apply obind_some in S as (vs & HV & S). destruct (IX _ eq_refl) as [N _]. apply indexer_total with (1 := S).
      * intros z Hz. apply N in Hz. apply in_flat_map in Hz as (va & Hva & Hz). destruct (omap_in_l HV Hva) as ([z' ts] & Hp & H).
        unfold indexer_variant_sem in H. destruct (va_name va) as [|z'']; [easy|]. destruct Hz as [->|[]]. cbn [token_id obind] in H.
        destruct (va_attr va); try discriminate. destruct (omap _ (va_tys va)); [|discriminate]. injection H as <- _. now apply (in_map fst) in Hp.
      * intros [z' ts] Hp. destruct (omap_in HV Hp) as (va & Hva & H). unfold indexer_variant_sem in H. apply obind_some in H as (? & _ & H).
        destruct (va_attr va); try discriminate. destruct (omap _ (va_tys va)) eqn:EO; [|discriminate]. injection H as _ <-. cbn [snd].
        apply omap_total_all in EO as [EL F]. split; [|exact F]. pose proof (SM _ Hva). lia.
    + apply union_total with (1 := S); [now apply UN|]. intros va Hva. pose proof (SM _ Hva). lia.
Qed.

Lemma env_tables cfg ds n f E : gen_code n cfg ds = GOk f -> file_env f = Some E -> env_all tables_total E.
Proof.
  intros G FE x T L. destruct (env_item FE L) as (i & Hi & _ & S). now apply item_total with (1 := G) (2 := Hi).
Qed.

Theorem generated_no_panic cfg ds f E x i n : greturns (fun n => gen_code n cfg ds) (GOk f) -> file_env f = Some E ->
  zlen i mod 4 = 0 -> from_bytes n E (TRef x) i <> Panic.
Proof.
  intros G FE U. apply greturns_run in G as (k & G & _). apply c09; [now apply env_tables with (1 := G)|exact I|easy].
Qed.

(** ** Serialization without panics *)
Section Indexed.
  Variable E : env.
  Fixpoint indexed (t : ty) : Prop :=
    let all := fold_right (fun t P => indexed t /\ P) True in
    let allf := fold_right (fun '(_, t) P => indexed t /\ P) True in
    match t with
    | TMap k v => indexed k /\ indexed v
    | TOption t | TNewtype t | TBox t | TSeq t | TArray _ t => indexed t
    | TTuple ts | TTupleStruct ts => all ts
    | TStruct ts => allf ts
    | TEnum vss =>
        fold_right (fun '(_, sh) P =>
          match sh with
          | VUnit => True
          | VNewtype t => indexed t
          | VTuple ts => all ts
          | VStruct ts => allf ts
          end /\ P) True vss
    | TIndexer vss index _ _ => fold_right (fun '(x, ts) P => (assoc String.eqb x index <> None /\ all ts) /\ P) True vss
    | TUnion vss disc _ _ => indexed disc /\ fold_right (fun '(_, o) P => match o with Some ts => all ts | None => True end /\ P) True vss
    | _ => True
    end.
  Definition calm (s : sval) : Prop := ~ In UserPanic (faults s).

  Lemma fold_in {A} (P : A -> Prop) l : fold_right (fun a Q => P a /\ Q) True l -> forall a, In a l -> P a.
  Proof. induction l; cbn; [easy|]. intros [H1 H2] b [<-|Hb]; auto. Qed.
  Lemma fold_in2 {A B} (P : A -> B -> Prop) l : fold_right (fun '(a, b) Q => P a b /\ Q) True l -> forall a b, In (a, b) l -> P a b.
  Proof. induction l as [|[a b] l IH]; cbn; [easy|]. intros [H1 H2] a' b' [[= <- <-]|Hb]; auto. Qed.
  Lemma calm_list l : (forall s, In s l -> calm s) -> ~ In UserPanic (flat_map faults l).
  Proof. intros H C. apply in_flat_map in C as (s & Hs & C). now apply (H s). Qed.
  Lemma calm_app a b : ~ In UserPanic a -> ~ In UserPanic b -> ~ In UserPanic (a ++ b).
  Proof. intros H1 H2 C. apply in_app_or in C as [C|C]; auto. Qed.
  Lemma calm_variant (b : bool) : ~ In UserPanic (if b then [] else [BigVariant]).
  Proof. destruct b; cbn; [easy|]. intros [C|[]]. discriminate. Qed.
  Lemma mapM_in {A B} (f : A -> res B) : forall l bs, mapM f l = Ok bs -> forall b, In b bs -> exists a, In a l /\ f a = Ok b.
  Proof.
    induction l as [|a l IH]; cbn; intros bs H b Hb; [injection H as <-; easy|]. apply bind_ok in H as (b0 & H0 & H). apply bind_ok in H as (bs' & H1 & H).
    injection H as <-. destruct Hb as [<-|Hb]; [exists a; split; [now left|easy]|]. destruct (IH _ H1 _ Hb) as (a' & Ha & E'). exists a'. split; [now right|easy].
  Qed.
  Lemma zipM_in {A B C} (f : A -> B -> res C) : forall l m cs, zipM f l m = Ok cs -> forall c, In c cs -> exists a b, In a l /\ In b m /\ f a b = Ok c.
  Proof.
    induction l as [|a l IH]; intros [|b m] cs H c Hc; cbn in H; try discriminate; [injection H as <-; easy|]. apply bind_ok in H as (b0 & H0 & H). apply bind_ok in H as (bs' & H1 & H).
    injection H as <-. destruct Hc as [<-|Hc]; [exists a, b; split; [now left|split; [now left|easy]]|]. destruct (IH _ _ H1 _ Hc) as (a' & b' & Ha & Hb & E'). exists a', b'. split; [now right|split; [now right|easy]].
  Qed.

  Lemma calls_calm : env_all indexed E -> forall n t v s, indexed t -> calls n E t v = Ok s -> calm s.
  Proof.
    intros EI. induction n as [|n IH]; [discriminate|]. intros t v out W H.
    assert (Z : forall ts vs l, (forall t, In t ts -> indexed t) -> zipM (calls n E) ts vs = Ok l -> ~ In UserPanic (flat_map faults l)).
    { intros ts vs l F HZ. apply calm_list. intros s' Hs. destruct (zipM_in HZ Hs) as (t' & v' & Ht & _ & C). now apply IH in C; [|apply F]. }
    assert (M : forall t vs l, indexed t -> mapM (calls n E t) vs = Ok l -> ~ In UserPanic (flat_map faults l)).
    { intros t' vs l F HM. apply calm_list. intros s' Hs. destruct (mapM_in HM Hs) as (v' & _ & C). now apply IH in C. }
    assert (MS : forall (ts : list (string * ty)), fold_right (fun '(_, t) P => indexed t /\ P) True ts -> forall t, In t (map snd ts) -> indexed t).
    { intros ts F t' Ht. apply in_map_iff in Ht as ([x t''] & <- & Ht). exact (fold_in2 (P := fun _ t => indexed t) F Ht). }
    destruct t as [|signed w| | | | | |t| | |t|t|t|k t|ts|ts|ts|tk tv|vss|k| |asr tf d|vss index names d|vss t names d|x]; cbn [calls] in H; cbn [indexed] in W.
    all: try (destruct v; try discriminate; injection H as <-; unfold calm; cbn; easy).
    - destruct v; try discriminate. injection H as <-. unfold call_int. destruct signed, w; cbn; unfold calm; cbn; intuition discriminate.
    - destruct v; try discriminate; [injection H as <-; easy|]. apply bind_ok in H as (s' & H & [= <-]). now apply IH in H.
    - apply bind_ok in H as (s' & H & [= <-]). now apply IH in H.
    - now apply IH in H.
    - destruct v; try discriminate. apply bind_ok in H as (s' & H & [= <-]). unfold calm. cbn. now apply M in H.
    - destruct v; try discriminate. apply bind_ok in H as (s' & H & [= <-]). unfold calm. cbn. now apply M in H.
    - destruct v; try discriminate. apply bind_ok in H as (s' & H & [= <-]). unfold calm. cbn. apply Z in H; [easy|]. now apply fold_in.
    - destruct v; try discriminate. apply bind_ok in H as (s' & H & [= <-]). unfold calm. cbn. apply Z in H; [easy|]. now apply fold_in.
    - destruct v; try discriminate. apply bind_ok in H as (s' & H & [= <-]). unfold calm. cbn. apply Z in H; [easy|]. now apply MS.
    - destruct v; try discriminate. apply bind_ok in H as (s' & H & [= <-]). unfold calm. cbn. intros C. apply in_flat_map in C as ([a b] & Ha & C).
      destruct (mapM_in H Ha) as (kv & _ & K). apply bind_ok in K as (a' & K1 & K). apply bind_ok in K as (b' & K2 & [= -> ->]).
      apply IH in K1, K2; try easy. apply in_app_or in C as [C|C]; [now apply K1|now apply K2].
    - destruct v as [| | | | | | | | | | |i vs]; try discriminate. destruct (nth_error vss i) as [[x [|t|ts|ts]]|] eqn:EN; try discriminate; apply nth_error_In in EN; pose proof (fold_in2 (P := fun _ sh => match sh with VUnit => True | VNewtype t => indexed t | VTuple ts => fold_right (fun t P => indexed t /\ P) True ts | VStruct ts => fold_right (fun '(_, t) P => indexed t /\ P) True ts end) W EN) as V; cbn in V.
      + destruct vs; [|discriminate]. injection H as <-. unfold calm. cbn. apply calm_variant.
      + destruct vs as [|v0 [|]]; try discriminate. apply bind_ok in H as (s' & H & [= <-]). unfold calm. cbn. apply calm_app; [apply calm_variant|now apply IH in H].
      + assert (H' : (l <- zipM (calls n E) ts vs;; Ok (STupleVariant (Z.of_nat i) l)) = Ok out) by (now destruct vs as [|? [|]]).
        apply bind_ok in H' as (s' & H' & [= <-]). unfold calm. cbn. apply calm_app; [apply calm_variant|]. apply Z in H'; [easy|]. now apply fold_in.
      + assert (H' : (l <- zipM (calls n E) (map snd ts) vs;; Ok (SStructVariant (Z.of_nat i) l)) = Ok out) by (now destruct vs as [|? [|]]).
        apply bind_ok in H' as (s' & H' & [= <-]). unfold calm. cbn. apply calm_app; [apply calm_variant|]. apply Z in H'; [easy|]. now apply MS.
    - destruct v; try discriminate. injection H as <-. unfold calm. cbn. intros C. apply in_flat_map in C as (s & Hs & C). apply in_map_iff in Hs as (z & <- & _). easy.
    - destruct v; try discriminate. injection H as <-. unfold calm. cbn. intros C. apply in_flat_map in C as (s & Hs & C). apply in_map_iff in Hs as (z & <- & _). easy.
    - destruct v as [| | | | | | | | | | |i vs]; try discriminate. destruct vs; [|discriminate]. destruct (nth_error asr i); [|discriminate]. injection H as <-. easy.
    - destruct v as [| | | | | | | | | | |i vs]; try discriminate. destruct (nth_error vss i) as [[x ts]|] eqn:EN; try discriminate. apply nth_error_In in EN.
      pose proof (fold_in2 (P := fun x ts => assoc String.eqb x index <> None /\ fold_right (fun t P => indexed t /\ P) True ts) W EN) as [V1 V2].
      destruct (assoc String.eqb x index); [|easy]. apply bind_ok in H as (s' & H & [= <-]). unfold calm. cbn. apply Z in H; [easy|]. now apply fold_in.
    - destruct v as [| | | | | | | | | | |i vs]; try discriminate. destruct W as [W1 W2]. destruct (nth_error vss i) as [[x [ts|]]|] eqn:EN; try discriminate.
      + apply nth_error_In in EN. pose proof (fold_in2 (P := fun _ o => match o with Some ts => fold_right (fun t P => indexed t /\ P) True ts | None => True end) W2 EN) as V. cbn in V.
        assert (H' : (l <- zipM (calls n E) (t :: ts) vs;; Ok (STuple l)) = Ok out) by (now destruct vs). apply bind_ok in H' as (s' & H' & [= <-]).
        unfold calm. cbn. apply Z in H'; [easy|]. intros t' [<-|Ht]; [easy|]. exact (fold_in V Ht).
      + destruct vs; [|discriminate]. injection H as <-. easy.
    - destruct (lookup E x) eqn:L; [|discriminate]. apply IH in H; [easy|]. now apply EI in L.
  Qed.

  Lemma calls_no_panic : forall n t v, calls n E t v <> Panic.
  Proof.
    induction n as [|n IH]; [discriminate|]. intros t v.
    assert (B : forall A B (r : res A) (g : A -> res B), r <> Panic -> (forall a, g a <> Panic) -> bind r g <> Panic) by (intros A B [] g; cbn; easy).
    assert (M : forall A B (g : A -> res B) l, (forall a, g a <> Panic) -> mapM g l <> Panic).
    { intros A B' g l HG. induction l as [|a l IHl]; cbn; [easy|]. apply B; [apply HG|]. intros b. now apply B. }
    assert (Z : forall ts vs, zipM (calls n E) ts vs <> Panic).
    { induction ts as [|t' ts IHt]; intros [|v' vs]; cbn; try easy. apply B; [apply IH|]. intros b. now apply B. }
    destruct t as [|signed w| | | | | |t| | |t|t|t|k t|ts|ts|ts|tk tv|vss|k| |asr tf d|vss index names d|vss t names d|x]; cbn [calls].
    all: try (now apply IH).
    all: try (apply B; [now apply IH|easy]).
    all: try (now destruct v).
    all: try (destruct v; try easy; apply B; [first [now apply IH|now apply M|now apply Z]|easy]).
    - destruct v; try easy. apply B; [apply M|easy]. intros kv. apply B; [now apply IH|]. intros a. apply B; [now apply IH|easy].
    - destruct v as [| | | | | | | | | | |i vs]; try easy. destruct (nth_error vss i) as [[x [|t|ts|ts]]|]; try easy.
      + now destruct vs.
      + destruct vs as [|? []]; try easy. apply B; [now apply IH|easy].
      + apply B; [apply Z|easy].
      + apply B; [apply Z|easy].
    - destruct v as [| | | | | | | | | | |i vs]; try easy. destruct vs; [|easy]. now destruct (nth_error _ _).
    - destruct v as [| | | | | | | | | | |i vs]; try easy. destruct (nth_error vss i) as [[x ts]|]; [|easy]. destruct (assoc _ _ _); [|easy]. apply B; [apply Z|easy].
    - destruct v as [| | | | | | | | | | |i vs]; try easy. destruct (nth_error vss i) as [[x [ts|]]|]; [| |easy].
      + pose proof (B _ _ (zipM (calls n E) (t :: ts) vs) (fun l => Ok (STuple l)) (Z _ _)) as K. destruct vs; now apply K.
      + now destruct vs.
    - destruct (lookup E x); [apply IH|easy].
  Qed.

  Lemma to_bytes_calm n t v : env_all indexed E -> indexed t -> to_bytes n E t v <> Panic.
  Proof.
    intros EI W H. unfold to_bytes in H. destruct (calls n E t v) as [s| | | |] eqn:C; try discriminate.
    - cbn in H. pose proof (c17 s) as F. pose proof (calls_calm EI W C) as K. unfold calm in K. destruct (faults s) as [|fl fs].
      + destruct F as (bs & F). now rewrite F in H.
      + destruct fl; cbn in F; rewrite F in H; try discriminate. apply K. now left.
    - now apply calls_no_panic in C.
  Qed.
End Indexed.

Section IndexedFile.
  Variable f : file.
  Lemma ty_indexed t : forall T, ty_sem f t = Some T -> indexed T.
  Proof.
    induction t; cbn [ty_sem]; intros T H; try (injection H as <-; easy).
    - destruct (find_item f x); [|discriminate]. now injection H as <-.
    - apply obind_some in H as (T1 & H1 & H). apply obind_some in H as (n & _ & H). injection H as <-. cbn. now apply IHt.
    - destruct (ty_sem f t); [|discriminate]. injection H as <-. cbn. now apply IHt.
    - destruct (ty_sem f t); [|discriminate]. injection H as <-. cbn. now apply IHt.
    - destruct (ty_sem f t); [|discriminate]. injection H as <-. cbn. now apply IHt.
  Qed.
  Lemma field_indexed a t T : field_sem f a t = Some T -> indexed T.
  Proof.
    destruct a; cbn [field_sem].
    - apply ty_indexed.
    - destruct t as [| | | | | |[[|] []| | | | | | | | | | |] len cast| | | | |]; try discriminate. destruct (array_len f len cast); [|discriminate]. intros [= <-]. easy.
    - destruct t as [| | | | | | |[[|] []| | | | | | | | | | |]| | | |]; try discriminate. intros [= <-]. easy.
    - destruct t; try discriminate. intros H. apply obind_some in H as (e & _ & H). unfold signed_sem in H.
      destruct (en_as_ref e), (en_try_from e); try discriminate. apply obind_some in H as (zs & _ & H). apply obind_some in H as (arms & _ & H).
      apply guard_some in H as [_ H]. injection H as <-. easy.
  Qed.
  Lemma all_indexed ts Ts : omap (ty_sem f) ts = Some Ts -> fold_right (fun t P => indexed t /\ P) True Ts.
  Proof. intros H. apply fold_all. intros T HT. destruct (omap_in H HT) as (t & _ & E). now apply ty_indexed with t. Qed.
  Lemma fold_all2 {A B} (P : A -> B -> Prop) l : (forall a b, In (a, b) l -> P a b) -> fold_right (fun '(a, b) Q => P a b /\ Q) True l.
  Proof. induction l as [|[a b] l IH]; cbn; [easy|]. intros H. split; [apply H; now left|apply IH; intros; apply H; now right]. Qed.

  Lemma indexer_indexed vs ix T : indexer_sem vs ix = Some T -> ix_unimplemented ix = false ->
    (forall p, In p vs -> fold_right (fun t P => indexed t /\ P) True (snd p)) -> indexed T.
  Proof.
    intros H N V. unfold indexer_sem in H. apply obind_some in H as (names & HN & H). apply obind_some in H as (index & _ & H).
    apply obind_some in H as (other & HO & H). apply guard_some in H as [HG H]. injection H as <-. cbn [indexed]. rewrite N in HG. cbn [orb] in HG.
    apply andb_prop in HG as [_ HG]. rewrite forallb_forall in HG.
    apply (fold_all2 (P := fun x ts => assoc String.eqb x index <> None /\ fold_right (fun t P => indexed t /\ P) True ts)). intros x ts Hp. split; [|exact (V _ Hp)].
    specialize (HG _ Hp). cbn in HG. now destruct (assoc String.eqb x index).
  Qed.
End IndexedFile.

Lemma item_indexed cfg ds n f i T : gen_code n cfg ds = GOk f -> (union_impl_indexer cfg = true -> no_default_arms ds) ->
  In i (fi_types f) -> item_sem f i = Some T -> indexed T.
Proof.
  intros G ND Hi S. destruct i as [x t|e|s|u]; cbn [item_sem] in S.
  - now apply ty_indexed in S.
  - assert (He : In e (enums f)) by (apply in_flat_map; exists (IEnum e); split; [easy|now left]).
    destruct (enum_item_from G He) as (x & y & l & _ & C). unfold enum_sem in S. apply guard_some in S as [_ S].
    assert (P : indexed (TEnum (map (fun x => (x, VUnit)) (enum_names e)))).
    { cbn. generalize (enum_names e). induction l0; cbn; easy. }
    destruct (en_derive e); try discriminate; destruct (en_indexer e) as [ix|] eqn:EX; try discriminate; destruct (en_as_ref e); try discriminate.
    + apply obind_some in S as (? & _ & S). now injection S as <-.
    + now injection S as <-.
    + destruct (enum_tables C EX) as [_ N]. apply indexer_indexed with (1 := S); [easy|].
      intros p Hp. apply in_map_iff in Hp as (y' & <- & _). easy.
  - unfold struct_sem in S. destruct (omap _ _) as [l|] eqn:E; [|discriminate]. injection S as <-. cbn.
    apply (fold_all2 (P := fun _ t => indexed t)). intros x T' Hp. destruct (omap_in E Hp) as (fd & _ & H).
    destruct (field_sem _ _ _) eqn:FS; [|discriminate]. injection H as _ <-. now apply field_indexed in FS.
  - assert (Hu : In u (unions f)) by (apply in_flat_map; exists (IUnion u); split; [easy|now left]).
    destruct (union_item_from G Hu) as (x & y & b & Hd & C). destruct (union_tables C) as (IX & UN & SM). unfold union_sem in S. apply guard_some in S as [_ S].
    destruct (un_derive u); try discriminate; destruct (un_indexer u) as [ix|] eqn:EX; try discriminate; destruct (un_union u) as [ui|] eqn:EU; try discriminate.
    + destruct (omap _ _) as [vs|] eqn:EV; [|discriminate]. injection S as <-. cbn.
      apply (fold_all2 (P := fun _ sh => match sh with VUnit => True | VNewtype t => indexed t | VTuple ts => fold_right (fun t P => indexed t /\ P) True ts | VStruct ts => fold_right (fun '(_, t) P => indexed t /\ P) True ts end)).
      intros x' sh Hp. destruct (omap_in EV Hp) as (va & _ & H). unfold serde_variant_sem in H. apply obind_some in H as (x'' & _ & H).
      destruct (va_tys va) as [|t [|]]; [destruct (va_attr va); try discriminate; now injection H as _ <-| |discriminate].
      destruct (field_sem _ _ _) eqn:FS; [|discriminate]. injection H as _ <-. cbn. now apply field_indexed in FS.
    + apply obind_some in S as (vs & HV & S). destruct (IX _ eq_refl) as [_ N].
      assert (UI : union_impl_indexer cfg = true).
      { destruct b as [c specs dflt]. unfold convert_union_token in C. apply gbind_ok in C as (nm & _ & C).
        apply gbind_ok in C as (t & _ & C). apply gbind_ok in C as (p & HP & C). apply gbind_ok in C as (q & HQ & C). cbv zeta in C.
        destruct (up_default q); [|discriminate]. injection C as <-. cbn in EX. now destruct (union_impl_indexer cfg). }
      destruct b as [c specs dflt]. pose proof (ND UI _ _ _ _ _ Hd) as ->. specialize (N _ _ eq_refl). apply indexer_indexed with (1 := S); [easy|].
      intros [z' ts] Hp. destruct (omap_in HV Hp) as (va & Hva & H). unfold indexer_variant_sem in H. apply obind_some in H as (? & _ & H).
      destruct (va_attr va); try discriminate. destruct (omap _ (va_tys va)) eqn:EO; [|discriminate]. injection H as _ <-. now apply all_indexed in EO.
    + unfold union_impl_sem in S. apply obind_some in S as (disc & _ & H). apply obind_some in H as (dt & HD & H).
      apply obind_some in H as (variants & HV & H). apply obind_some in H as (names & HN & H). apply obind_some in H as (other & HO & H).
      apply guard_some in H as [_ H]. injection H as <-. cbn [indexed]. split; [now apply ty_indexed in HD|].
      apply (fold_all2 (P := fun _ o => match o with Some ts => fold_right (fun t P => indexed t /\ P) True ts | None => True end)).
      intros z o Hp. destruct (omap_in HV Hp) as (va & _ & E). unfold union_variant_sem in E. apply obind_some in E as (x' & _ & E).
      destruct (va_attr va); try discriminate. destruct (va_tys va) as [|t ts]; [discriminate|]. apply guard_some in E as [_ E].
      destruct (omap (ty_sem f) ts) as [Ts|] eqn:ET; [|discriminate]. injection E as _ <-. now apply all_indexed in ET.
Qed.

Theorem encode_no_panic cfg ds f E x v n : greturns (fun n => gen_code n cfg ds) (GOk f) -> file_env f = Some E ->
  (union_impl_indexer cfg = true -> no_default_arms ds) -> to_bytes n E (TRef x) v <> Panic.
Proof.
  intros G FE ND. apply greturns_run in G as (k & G & _). apply to_bytes_calm; [|exact I].
  intros y T L. destruct (env_item FE L) as (i & Hi & _ & S). now apply item_indexed with (1 := G) (3 := Hi).
Qed.
