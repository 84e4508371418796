(** No code is generated from names that lead round in a circle. *)
From Coq Require Import Permutation.
From Verif Require Import Base Nom Ast ParserModel SpecGrammar SpecParse CaseModel RustAst GenModel SpecGen GenFacts SpecCircle GenTotal WireBase WireEnums.
Set Implicit Arguments.
Unset Strict Implicit.
Local Open Scope list_scope.

Section Circle.
  Variables (cfg : config) (ds : list definition).
  Let cx := ctx cfg ds.

  Lemma circular_fuel x : circular ds x -> forall n k, resolve_name cx n k x = GFuel.
  Proof.
    intros (P & Px & H) n k. revert x Px. induction n as [|n IH]; intros x Px; [easy|].
    destruct (H x Px) as (z & Pz & [F|[N F]]); cbn [resolve_name]; change (constants cx) with (const_defs ds).
    - apply assoc_first in F. rewrite F. now rewrite (IH z Pz).
    - apply assoc_none in N. rewrite N. unfold cx at 1. cbn [typedefs ctx]. rewrite find_member_assoc.
      apply assoc_first in F. unfold member_defs in F. rewrite F. apply (IH z Pz).
  Qed.
  Lemma mention_fuel rt d x : mentions d = Some (TsIdent x) -> rt x = GFuel -> convert_type_token rt d = GFuel.
  Proof. destruct d; cbn; try discriminate; intros [= ->] E; cbn; now rewrite E. Qed.
  Lemma circular_type_fuel x : remove_typedef cfg = true -> circular_type ds x -> forall n, resolve_type_token cx n x = GFuel.
  Proof.
    intros R (P & Px & H) n. revert x Px. induction n as [|n IH]; intros x Px; [easy|]. cbn [resolve_type_token].
    change (cx_config cx) with cfg. rewrite R. destruct (H x Px) as (d & z & Pz & F & M).
    apply assoc_first in F. change (typedefs cx) with (type_defs ds). rewrite F. now rewrite (mention_fuel M (IH z Pz)).
  Qed.
  Lemma gmap_never {A B} (f : A -> gres B) l bs a : gmap f l = GOk bs -> In a l -> exists b, f a = GOk b.
  Proof. intros H I. apply gmap_ok in H. destruct (Forall2_in_l H I) as (b & _ & E). eauto. Qed.
  Lemma values_cases n c l : forall s acc p, union_values cx n c s l acc = GOk p -> forall z d v, In (z, d, v) l -> exists ct, convert_case_token cx n v d c = GOk ct.
  Proof.
    induction l as [|[[e d'] v'] l IH]; intros s acc p H z d v I; [destruct I|]. cbn [union_values] in H.
    apply gbind_ok in H as (fill & _ & H). apply gbind_ok in H as (ct & Ct & H). apply gbind_ok in H as (bv & _ & H). apply gbind_ok in H as (s' & _ & H).
    destruct I as [[= <- <- <-]|I]; eauto.
  Qed.
  Lemma union_parts_ok n x c w specs dflt u : convert_union_token cx n x (UBody (DVariable c w) specs dflt) = GOk u ->
    (c <> TsBool -> exists values p, gmap (fun s => match s with CaseSpec vs d =>
         gmap (fun v => z <~ resolve_value cx n KU32 v;; GOk (z, d, v)) vs end) specs = GOk values /\
       union_values cx n c 0 (sort_by (fun p => fst (fst p)) (concat values)) no_parts = GOk p) /\
    (forall d, dflt = Some d -> exists o, convert_type_token (resolve_type_token cx n) d = GOk o).
  Proof.
    intros H. cbn [convert_union_token] in H. apply gbind_ok in H as (nm & _ & H). cbn [gbind] in H. apply gbind_ok in H as (p & Hp & H).
    apply gbind_ok in H as (p' & Hd & _). split.
    - intros N. destruct c; try discriminate; try easy; apply gbind_ok in Hp as (vs & Hv & Hp); eauto.
    - intros d ->. cbn [union_default] in Hd. apply gbind_ok in Hd as (o & Ho & _). eauto.
  Qed.
End Circle.

Theorem circular_never cfg ds x n f : needs_value ds x -> circular ds x -> gen_code n cfg ds <> GOk f.
Proof.
  intros N C G. destruct N as [(t & y & l & a & I & Ia & V)|(t & y & c & w & specs & dflt & I & NB & L)].
  - destruct (item_from G I) as (its & TT & _). cbn [type_token_of] in TT. apply gbind_ok in TT as (e & HE & _). unfold convert_enum_token in HE.
    apply gbind_ok in HE as (ix & HI & _). destruct (gmap_never HI Ia) as (b & E). rewrite V in E. cbn in E. now rewrite (circular_fuel cfg C) in E.
  - destruct (item_from G I) as (its & TT & _). cbn [type_token_of] in TT. apply gbind_ok in TT as (u & HU & _).
    destruct (union_parts_ok HU) as [H _]. destruct (H NB) as (vals & p & HV & _). unfold labels in L. apply in_flat_map in L as ([vs d] & Is & Iv).
    destruct (gmap_never HV Is) as (b & E). destruct (gmap_never E Iv) as (b' & E'). cbn in E'. now rewrite (circular_fuel cfg C) in E'.
Qed.
Theorem circular_type_never cfg ds x n f : remove_typedef cfg = true -> needs_type ds x -> circular_type ds x -> gen_code n cfg ds <> GOk f.
Proof.
  intros R (t & d & M & N) C G. destruct N as [(y & l & I & Id)|(y & c & w & specs & dflt & I & N)].
  - destruct (item_from G I) as (its & TT & _). cbn [type_token_of] in TT. apply gbind_ok in TT as (s & HS & _). unfold convert_struct_token in HS.
    apply gbind_ok in HS as (fs & HF & _). destruct (gmap_never HF Id) as (b & E). unfold struct_field in E. destruct (decl_name d); [|discriminate].
    now rewrite (mention_fuel M (circular_type_fuel R C n)) in E.
  - destruct (item_from G I) as (its & TT & _). cbn [type_token_of] in TT. apply gbind_ok in TT as (u & HU & _).
    destruct (union_parts_ok HU) as [H1 H2]. destruct N as [ED|(NB & v & vs & Is)].
    + destruct (H2 d ED) as (o & E). now rewrite (mention_fuel M (circular_type_fuel R C n)) in E.
    + destruct (H1 NB) as (vals & p & HV & HP). pose proof (gmap_ok HV) as F2. destruct (Forall2_in_l F2 Is) as (b & Ib & E).
      cbn in E. apply gbind_ok in E as (b0 & E0 & E). apply gbind_ok in E as (bs & _ & [= <-]). apply gbind_ok in E0 as (z & _ & [= <-]).
      destruct (values_cases HP (z := z) (d := d) (v := v)) as (ct & E).
      { apply (Permutation_in _ (Permutation_sym (sort_by_perm _ _))). apply in_concat. exists ((z, d, v) :: bs). split; [exact Ib|now left]. }
      unfold convert_case_token in E. apply gbind_ok in E as (nm & _ & E). apply gbind_ok in E as (cd & _ & E). now rewrite (mention_fuel M (circular_type_fuel R C n)) in E.
Qed.
