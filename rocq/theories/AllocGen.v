(** The memory that decoding a generated type requests (C107). *)
From Coq Require Import Permutation.
From Verif Require Import Base RustTypes SpecXdr SpecTypes XdrFacts SpecMisc SerModel DeModel SpecDecode DecProofs CodecProofs CodecLemmas
  Nom NomFacts Keyword Ast ParserModel SpecGrammar SpecParse
  ParseSound ParserLemmas ConstProofs CaseModel SpecCase CaseProofs RustAst GenModel SpecGen SpecItems GenFacts GenTotal GenPanic GenLemmas
  SpecXdl GenSem SpecWire WireBase WireEnum WireBack WireEnums SpecEmit EmitBase EmitProofs EmitFlags EmitItems EmitNames EmitRun EmitStop
  SpecWork AllocModel SpecAlloc AllocProofs.
Set Implicit Arguments. Unset Strict Implicit.
Local Open Scope list_scope.

(** ** The types inside of an emitted item *)
Lemma item_inner f i T : item_sem f i = Some T ->
  (exists x t, i = IAlias x t /\ ty_sem f t = Some T) \/
  (forall b, T <> TBox b) /\ (forall k, T <> TOpaqueFixed k) /\ (forall x, T <> TRef x) /\
  forall u, In u (inner [] T) -> (exists a t, In t (item_tys i) /\ field_sem f a t = Some u) \/
    exists ui un d, i = IUnion ui /\ un_union ui = Some un /\ ui_disc un = Some d /\ ty_sem f d = Some u.
Proof.
  intros S. destruct i as [x t|e|s|u]; cbn [item_sem] in S.
  - left. eauto.
  - right. unfold enum_sem in S. apply guard_some in S as [_ S].
    assert (P : forall u, In u (inner [] (TEnum (map (fun x => (x, VUnit)) (enum_names e)))) -> False).
    { intros u I. cbn in I. apply in_flat_map in I as ([x sh] & I & K). apply in_map_iff in I as (? & [= <- <-] & _). easy. }
    destruct (en_derive e); try discriminate; destruct (en_indexer e) as [ix|] eqn:EX; try discriminate; destruct (en_as_ref e); try discriminate.
    + apply obind_some in S as (? & _ & S). injection S as <-. repeat (split; [easy|]). intros u I. now destruct (P u).
    + injection S as <-. repeat (split; [easy|]). intros u I. now destruct (P u).
    + unfold indexer_sem in S. apply obind_some in S as (names & _ & H). apply obind_some in H as (index & _ & H).
      apply obind_some in H as (other & _ & H). apply guard_some in H as [_ H]. injection H as <-. repeat (split; [easy|]).
      intros u I. cbn in I. apply in_flat_map in I as ([x l] & I & K). apply in_map_iff in I as (? & [= <- <-] & _). easy.
  - right. unfold struct_sem in S. destruct (omap _ _) as [l|] eqn:EO; [|discriminate]. injection S as <-. repeat (split; [easy|]).
    intros u I. cbn [inner] in I. apply in_map_iff in I as ([x T] & <- & Hp). left. destruct (omap_in EO Hp) as (fd & Hfd & H).
    destruct (field_sem _ _ _) eqn:FS; [|discriminate]. injection H as _ <-. exists (fd_attr fd), (fd_ty fd). split; [cbn; now apply in_map|exact FS].
  - right. unfold union_sem in S. apply guard_some in S as [DF S].
    destruct (un_derive u); try discriminate; destruct (un_indexer u) as [ix|] eqn:EX; try discriminate; destruct (un_union u) as [ui|] eqn:EU; try discriminate.
    + destruct (omap _ _) as [vs|] eqn:EV; [|discriminate]. injection S as <-. repeat (split; [easy|]). intros v I. cbn [inner] in I.
      apply in_flat_map in I as ([x sh] & I & K). left. destruct (omap_in EV I) as (va & Hva & H). unfold serde_variant_sem in H. apply obind_some in H as (x'' & _ & H).
      destruct (va_tys va) as [|t [|]] eqn:VT; [destruct (va_attr va); try discriminate; injection H as _ <-; easy| |discriminate].
      destruct (field_sem _ _ _) eqn:FS; [|discriminate]. injection H as _ <-. destruct K as [<-|[]]. exists (va_attr va), t. split; [|exact FS].
      cbn [item_tys]. apply in_flat_map. exists va. rewrite VT. split; [easy|now left].
    + apply obind_some in S as (vs & HV & S). unfold indexer_sem in S. apply obind_some in S as (names & _ & H). apply obind_some in H as (index & _ & H).
      apply obind_some in H as (other & _ & H). apply guard_some in H as [_ H]. injection H as <-. repeat (split; [easy|]). intros v I. cbn [inner] in I.
      apply in_flat_map in I as ([x ts] & I & K). left. destruct (omap_in HV I) as (va & Hva & H). unfold indexer_variant_sem in H. apply obind_some in H as (? & _ & H).
      destruct (va_attr va); try discriminate. destruct (omap _ (va_tys va)) eqn:EO; [|discriminate]. injection H as _ <-.
      destruct (omap_in EO K) as (t & Ht & e). exists ANone, t. split; [|exact e]. cbn [item_tys]. apply in_flat_map. eauto.
    + unfold union_impl_sem in S. apply obind_some in S as (disc & DI & H). apply obind_some in H as (dt & HD & H).
      apply obind_some in H as (variants & HV & H). apply obind_some in H as (names & HN & H). apply obind_some in H as (other & HO & H).
      apply guard_some in H as [NE H]. injection H as <-. repeat (split; [easy|]). intros v I. cbn [inner] in I. destruct I as [<-|I]; [right; eauto 8|left].
      apply in_flat_map in I as ([x o] & I & K). destruct (omap_in HV I) as (va & Hva & Ev). unfold union_variant_sem in Ev. apply obind_some in Ev as (x' & _ & Ev).
      destruct (va_attr va); try discriminate. destruct (va_tys va) as [|t ts] eqn:VT; [discriminate|]. apply guard_some in Ev as [_ Ev].
      destruct (omap (ty_sem f) ts) as [Ts|] eqn:ET; [|discriminate]. injection Ev as _ <-. destruct (omap_in ET K) as (t' & Ht' & e).
      exists ANone, t'. split; [|exact e]. cbn [item_tys]. apply in_flat_map. exists va. rewrite VT. split; [easy|now right].
Qed.

(** ** Types with boxes only where the generator puts them *)
Definition box_content (b : ty) : Prop := worded b = true \/ inplace b = true.
Inductive tame : ty -> Prop :=
  tame_i t : (forall u, In u (inner [] t) -> tame u) -> (forall b, t = TBox b -> box_content b) -> (forall k, t = TOpaqueFixed k -> (k <= 32)%nat) -> tame t.

Lemma tame_within E : (forall x T, lookup E x = Some T -> tame T) -> forall u t, within E u t -> tame t -> tame u.
Proof.
  intros HE u t W. induction W as [|s t I _ IH]; [easy|]. intros TT. apply IH. assert (H : forall u, In u (inner [] t) -> tame u) by now inversion TT. destruct t as [| | | | | | | | | | | | | | | | | | | | | | | |nm]; try (apply H; exact I).
  cbn in I. destruct (lookup E nm) as [T|] eqn:L; [|easy]. destruct I as [<-|[]]. now apply HE in L.
Qed.

Lemma leaf_tame t : inner [] t = [] -> (forall b, t <> TBox b) -> (forall k, t <> TOpaqueFixed k) -> tame t.
Proof. intros H B O. constructor; [rewrite H; easy|intros b ->; now destruct (B b)|intros k ->; now destruct (O k)]. Qed.
Lemma step_tame t u : inner [] t = [u] -> (forall b, t <> TBox b) -> (forall k, t <> TOpaqueFixed k) -> tame u -> tame t.
Proof. intros H B O U. constructor; [rewrite H; now intros v [<-|[]]|intros b ->; now destruct (B b)|intros k ->; now destruct (O k)]. Qed.
Lemma var_tame : tame TVariableArray.
Proof. repeat first [apply leaf_tame; easy|eapply step_tame; [reflexivity|easy|easy|]]. Qed.
Lemma ty_tame f t : forall T, ty_sem f t = Some T -> boxfree t -> tame T.
Proof.
  induction t; cbn [ty_sem]; intros T H B; try (injection H as <-; apply leaf_tame; easy).
  - destruct (find_item f x); [|discriminate]. injection H as <-. apply leaf_tame; easy.
  - apply obind_some in H as (T1 & H1 & H). apply obind_some in H as (n & _ & H). injection H as <-. eapply step_tame; [reflexivity|easy|easy|auto].
  - destruct (ty_sem f t) as [T1|]; [|discriminate]. injection H as <-. eapply step_tame; [reflexivity|easy|easy|auto].
  - injection H as <-. eapply step_tame; [reflexivity|easy|easy|apply var_tame].
  - destruct (ty_sem f t) as [T1|]; [|discriminate]. injection H as <-. eapply step_tame; [reflexivity|easy|easy|auto].
  - easy.
  - injection H as <-. apply var_tame.
Qed.
Lemma boxes_tame f t T : ty_sem f t = Some T -> boxes_ok t -> tame T.
Proof.
  intros H [B|(t' & B & -> & K)]; [now apply ty_tame in H|]. cbn [ty_sem] in H. destruct (ty_sem f t') as [T'|] eqn:e; [|discriminate]. injection H as <-.
  constructor; [|intros b [= <-]|easy].
  - intros u [<-|[]]. now apply ty_tame in e.
  - destruct t'; try easy; cbn [ty_sem] in e.
    + injection e as <-. now left.
    + destruct t'; try easy. cbn [ty_sem] in e. apply obind_some in e as (T1 & [= <-] & H). apply obind_some in H as (n & _ & H). injection H as <-. now right.
    + destruct (ty_sem f t'); [|discriminate]. injection e as <-. now left.
    + injection e as <-. now left.
    + destruct (ty_sem f t'); [|discriminate]. injection e as <-. now left.
Qed.
Lemma field_tame f a t T : field_sem f a t = Some T -> boxes_ok t -> tame T.
Proof.
  destruct a; cbn [field_sem].
  - apply boxes_tame.
  - destruct t as [| | | | | |[[|] []| | | | | | | | | | |] len cast| | | | |]; try discriminate. destruct (array_len f len cast) as [k|] eqn:L; [|discriminate]. intros [= <-] _.
    constructor; [easy|easy|]. intros k' [= <-]. unfold array_len in L. apply obind_some in L as (z & _ & L). apply guard_some in L as [G L]. injection L as <-. lia.
  - destruct t as [| | | | | | |[[|] []| | | | | | | | | | |]| | | |]; try discriminate. intros [= <-] _. apply leaf_tame; easy.
  - destruct t; try discriminate. intros H _. apply obind_some in H as (e & _ & H). unfold signed_sem in H.
    destruct (en_as_ref e), (en_try_from e); try discriminate. apply obind_some in H as (zs & _ & H). apply obind_some in H as (arms & _ & H).
    apply guard_some in H as [_ H]. injection H as <-. apply leaf_tame; easy.
Qed.
Lemma env_tame cfg ds n f E : gen_code n cfg ds = GOk f -> file_env f = Some E -> self_free ds -> forall x T, lookup E x = Some T -> tame T.
Proof.
  intros G FE SF x T L. destruct (env_item FE L) as (i & Hi & _ & S). pose proof (item_boxes G SF Hi) as IB.
  destruct (item_inner S) as [(y & t & -> & H)|(NB & NO & NR & HI)].
  - apply (boxes_tame H). apply IB. now left.
  - constructor; [|intros b ->; now destruct (NB b)|intros k ->; now destruct (NO k)]. intros u I. destruct (HI u I) as [(a & t & Ht & F)|(ui & un & d & -> & EU & ED & F)].
    + apply (field_tame F). now apply IB.
    + apply (ty_tame F). assert (Hu : In ui (unions f)) by (apply in_flat_map; exists (IUnion ui); split; [easy|now left]).
      destruct (union_item_from G Hu) as (x' & y & b & _ & C). destruct (union_boxfree C) as [_ B]. now apply B with un.
Qed.

Theorem generated_meter cfg ds f E x sz limit S P : generated cfg ds f E -> self_free ds -> 0 <= limit -> 1 <= S -> 2 ^ 32 - 1 <= P -> sizes sz S E (TRef x) ->
  forall n i, 0 <= meter sz limit n E (TRef x) i <= (limit + 16 * S) * zlen i + P.
Proof.
  intros [G FE] SF HL HS HP HZ n i. apply greturns_run in G as (k & G & _). pose proof (env_tame G FE SF) as ET.
  assert (TM : forall u, within E u (TRef x) -> tame u) by (intros u W; apply (tame_within ET W); apply leaf_tame; easy).
  apply meter_bound; try lia; [|intros b; discriminate]. split; [intros u W; now apply HZ|]. split; [|split; [|split]].
  - intros a W. apply (HZ a). clear -W. remember (TSeq a) as q. remember (TRef x) as t. clear Heqt. induction W as [|s t I W IH]; subst; [eapply wi_inner; [now left|constructor]|].
    eapply wi_inner; eauto.
  - intros u b W I. left. assert (WB : within E (TBox b) (TRef x)).
    { clear -W I. induction W as [|s t J W IH]; [eapply wi_inner; [exact I|constructor]|eapply wi_inner; eauto]. }
    assert (WW : within E b (TRef x)).
    { clear -WB. remember (TBox b) as q. remember (TRef x) as t. clear Heqt. induction WB as [|s t J W IH]; subst; [eapply wi_inner; [now left|constructor]|eapply wi_inner; eauto]. }
    assert (HB : box_content b) by (specialize (TM _ WB); inversion TM as [? _ HB _]; now apply HB).
    destruct (HZ b WW) as [_ [Z0|NE]]; [now left|]. right. destruct HB as [HB|HB]; [now left|right; easy].
  - intros k' W. specialize (TM _ W). inversion TM as [? _ _ HO]. specialize (HO k' eq_refl). lia.
  - intros _. lia.
Qed.
