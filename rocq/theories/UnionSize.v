(** The size of the values of fixed-size types, unions included. *)
From Verif Require Import Base RustTypes SerModel DeModel SpecXdr SpecTypes XdrFacts TotalProofs CodecProofs Nom Ast ParserModel SpecGrammar SpecParse ParserLemmas SpecCase RustAst GenModel SpecGen GenFacts
  SpecItems SpecXdl GenSem SpecWire SpecEmit SpecConv SpecSize EmitProofs EmitNorm EmitSize MaxDefs GenLemmas ConvLemmas.
Set Implicit Arguments.
Unset Strict Implicit.
Local Open Scope list_scope.

Lemma unsigned_len k z bs : unsigned k z bs -> zlen bs = Z.of_nat k.
Proof. intros [L _]. unfold zlen. now rewrite L. Qed.
Lemma signed_len k z bs : signed k z bs -> zlen bs = Z.of_nat k.
Proof. intros [L _]. unfold zlen. now rewrite L. Qed.
Lemma number_size d z bs : number_of d z -> rfc d bs -> zlen bs = 4.
Proof. intros [->|[->| ->]] R; inversion R; subst; [now apply signed_len in H0|now apply unsigned_len in H0|now apply signed_len in H0]. Qed.

Section Sizes.
  Variables (ds : list definition) (dm : bool).
  Let ds' := map def_without_max ds.
  Ltac sized := match goal with H : unsigned _ _ _ |- _ => apply unsigned_len in H; exact H | H : signed _ _ _ |- _ => apply signed_len in H; exact H end.
  Ltac kind F := repeat match goal with
    | H : first _ (type_defs ds') _ |- _ => let t := fresh "t" in let F' := fresh "F'" in let Q := fresh "Q" in
        destruct (first_max_back H) as (t & F' & Q); clear H; pose proof (first_fun F F'); subst t; cbn in Q; try discriminate Q
    end.

  Lemma fixed_rfc : (forall t k, fixed true ds t k -> forall x bs, xtype ds' dm t x -> rfc x bs -> zlen bs = k) /\
    (forall d k, fixed_decl true ds d k -> forall x bs, xdecl ds' dm (without_max d) x -> rfc x bs -> zlen bs = k) /\
    (forall l k, fixed_all true ds l k -> forall xs bs, xfields ds' dm (map without_max l) xs -> rfcs xs bs -> zlen bs = k).
  Proof.
    apply (@fixed_ind3 true ds (fun t k => forall x bs, xtype ds' dm t x -> rfc x bs -> zlen bs = k)
      (fun d k => forall x bs, xdecl ds' dm (without_max d) x -> rfc x bs -> zlen bs = k)
      (fun l k => forall xs bs, xfields ds' dm (map without_max l) xs -> rfcs xs bs -> zlen bs = k)).
    - intros s x bs X R. inversion X; subst; inversion R; subst; sized.
    - intros s x bs X R. inversion X; subst; inversion R; subst; sized.
    - intros x bs X R. inversion X; subst; inversion R; subst; sized.
    - intros x bs X R. inversion X; subst; inversion R; subst; sized.
    - intros x bs X R. inversion X; subst; inversion R; subst; sized.
    - intros s x bs X R. inversion X; subst; inversion R; subst; sized.
    - intros s x bs X R. inversion X; subst; inversion R; subst; sized.
    - intros x y l F v bs X R. inversion X; subst; kind F. injection Q; intros; subst. match goal with H : xtype _ _ (TsEnum _) _ |- _ => inversion H; subst end. inversion R; subst. sized.
    - intros x y l k F _ IH v bs X R. inversion X; subst; kind F. injection Q; intros; subst. match goal with H : xtype _ _ (TsStruct _) _ |- _ => inversion H; subst end. inversion R; subst. eauto.
    - intros x d k F _ IH v bs X R. inversion X; subst; kind F. injection Q; intros; subst. eauto.
    - intros x y c specs dflt k _ F _ IC _ ID v bs X R. inversion X; subst; kind F. injection Q; intros; subst. match goal with H : xtype _ _ (TsUnion _) _ |- _ => inversion H; subst end; inversion R; subst; rewrite zlen_app.
      all: match goal with N : number_of ?d _, A : rfc ?d _ |- _ => rewrite (number_size N A) end; f_equal.
      + match goal with H : In (CaseSpec _ _) (map _ specs) |- _ => apply in_map_iff in H as ([vs' d'] & [= <- <-] & H) end. eauto.
      + destruct dflt as [d'|]; [|discriminate]. match goal with H : Some _ = _ |- _ => injection H; intros; subst | H : _ = Some _ |- _ => injection H; intros; subst end. eauto.
    - intros t y k _ IH x bs X R. inversion X; subst. eauto.
    - intros t y v z k _ IH V x bs X R. inversion X; subst. inversion R; subst. apply (value_max ds) in H3. rewrite (value_is_fun V H3). clear V H3 R X.
      revert bs H0. induction H4; intros bs RR; inversion RR; subst; [reflexivity|]. rewrite zlen_app, (IHxall IH _ H5), zlen_cons, (IH _ _ H H2). lia.
    - intros y v z k V K M x bs X R. inversion X; subst. inversion R; subst. match goal with H : value_is ds' _ _ |- _ => apply (value_max ds) in H; pose proof (value_is_fun V H) end. match goal with H : zero_pad _ _ |- _ => destruct H as (P1 & P2 & _) end. rewrite zlen_app. unfold zlen in *. lia.
    - intros _ x bs X R. inversion X; subst. now inversion R.
    - intros xs bs X R. inversion X; subst. now inversion R.
    - intros d l k m _ IHd _ IHl xs bs X R. inversion X; subst. inversion R; subst. rewrite zlen_app. f_equal; eauto.
  Qed.
End Sizes.

Theorem size_unions fl checks src ds : let cfg := main_config fl checks in
  greturns (fun n => parse n src) (GOk ds) -> definitions_ok cfg ds -> exact_defs cfg ds ->
  exists f E, generated cfg ds f E /\ compiles f /\
    forall x td k, first x (type_defs ds) td -> is_typedef td = false -> fixed true ds (TsIdent x) k ->
      exists y, camel_of x y /\ forall n bs v, from_bytes n E (TRef y) bs = Ok v -> zlen bs = k.
Proof.
  intros cfg P DO EX. destruct (c78 P DO EX) as (f & E & G & C & H). exists f, E. split; [exact G|]. split; [exact C|].
  intros x td k F NT FX. destruct (match td with TdEnum _ _ => true | _ => false end) eqn:EN.
  - destruct td as [|y l| |]; try discriminate. assert (k = 4) as ->.
    { inversion FX; subst; match goal with H : first x _ _ |- _ => discriminate (first_fun F H) | _ => easy end. }
    destruct (@generated_size cfg ds f E x 4 (c34 P) G C) as (y' & Cy & S); [eauto|now apply fx_enum with y l|eauto].
  - destruct (H x td F NT) as (y & Cy & S); [intros; subst; discriminate|]. exists y. split; [exact Cy|]. intros n bs v D.
    destruct (S n bs v D) as (xval & X & (b & R) & SP). destruct (SP b R) as [W _].
    assert (ND : union_impl_indexer cfg = true -> no_default_arms ds).
    { intros I x' y' c specs dflt HI. specialize (EX _ _ HI). cbn in EX. destruct EX as (_ & EX & _). apply EX. destruct (use_union fl) eqn:U; [|reflexivity]. unfold cfg, main_config in I. cbn in I. rewrite U in I. discriminate. }
    destruct (generated_normalise G C ND D) as (bs' & W' & <- & _). pose proof (returns_det W' W) as Q; injection Q as ->. exact (proj1 (@fixed_rfc ds _) _ _ FX _ _ X R).
Qed.
