(** The generated file: facts about its items and constants, and their
    meaning in Rust. *)
From Verif Require Import Base RustTypes SpecXdr SpecTypes XdrFacts Nom NomFacts Ast ParserModel
  SpecGrammar SpecParse ConstProofs CaseModel SpecCase CaseProofs RustAst GenModel SpecGen GenFacts GenTotal
  GenPanic SpecItems GenLemmas SpecXdl GenSem WireBase WireEnum WireTok WireStruct WireUnion.
Set Implicit Arguments.
Unset Strict Implicit.
Local Open Scope list_scope.

Arguments sd_removal [cfg ds] _.
Arguments sd_enum_mode [cfg ds] _.
Arguments sd_union_mode [cfg ds] _.
Arguments sd_good [cfg ds] _.
Arguments sd_scope [cfg ds] _.
Arguments sd_types [cfg ds] _.
Arguments sd_names [cfg ds] _.
Arguments sd_well_founded [cfg ds] _.
Arguments sd_consts [cfg ds] _.
Arguments sd_sized [cfg ds] _.
Arguments sd_items [cfg ds] _ [x t] _.

Section File.
  Variables (cfg : config) (ds : list definition).
  Hypothesis SD : supported_defs cfg ds.
  Let G := sd_good SD.
  Let RM := sd_removal SD.
  Let NT := sd_types SD.
  Let cx := ctx cfg ds.

  Lemma IN x t : In (x, t) (type_defs ds) -> is_typedef t = false -> type_name_ok x.
  Proof.
    intros H T. destruct (sd_names SD) as [_ F]. rewrite Forall_forall in F. apply F. apply in_map_iff. exists (x, t).
    split; [easy|]. apply filter_In. split; [easy|]. cbn. now rewrite T.
  Qed.

  Definition item_facts (d : string * typedef) (i : type_item) : Prop :=
    GenSem.item_name i = camel (fst d) /\ item_compiles i /\
    match snd d with
    | TdDecl _ => False
    | TdEnum _ l => exists e, i = IEnum e /\ enum_facts cfg ds l e
    | TdStruct _ l => exists s, i = IStruct s /\ struct_facts cfg ds (fst d) l s
    | TdUnion _ (UBody c specs dflt) => exists u, i = IUnion u /\ exists t nm cty cs vs dvs,
        c = DVariable t nm /\ union_facts cfg ds t specs dflt cty cs vs dvs u
    end.

  Lemma types_wp n : wp (types_token cx n) (Forall2 item_facts (item_defs true ds)).
  Proof.
    unfold types_token. apply wp_bind with (P := Forall2 (fun d l => if is_typedef (snd d) then l = [] else
      exists i, l = [i] /\ item_facts d i) (type_defs ds)).
    - change (typedefs cx) with (type_defs ds). apply wp_gmap. intros [x t] H.
      pose proof (sd_items SD H) as O. destruct (good_types G H) as [gt et]. pose proof (@IN x t H) as NX.
      destruct t as [d|y l|y l|y [c specs dflt]]; cbn [type_token_of is_typedef snd].
      + change (cx_config cx) with cfg. now rewrite RM.
      + injection et as ->. destruct gt as (gx & _ & gl). eapply wp_bind; [apply enum_wp; try easy; [apply NX; easy|apply (sd_enum_mode SD)]|].
        cbn. intros e [E1 E2]. eexists. split; [reflexivity|]. split; [easy|]. split; [apply E2|]. now exists e.
      + eapply wp_bind; [eapply struct_wp; try eassumption; apply IN|].
        cbn. intros s (E1 & E2 & E3). eexists. split; [reflexivity|]. split; [easy|]. split; [easy|]. now exists s.
      + eapply wp_bind; [eapply union_wp; try eassumption; apply IN|].
        cbn. intros u (E1 & t & nm & cty & cs & vs & dvs & E2 & UF). eexists. split; [reflexivity|]. split; [easy|].
        split; [apply (uf_compiles UF)|]. exists u. split; [easy|]. now exists t, nm, cty, cs, vs, dvs.
    - intros ls H. cbn. unfold item_defs. induction H as [|[x t] l ts ls h H IH]; [constructor|].
      cbn in *. destruct (is_typedef t); cbn.
      + subst l. exact IH.
      + destruct h as (i & -> & F). constructor; [exact F|exact IH].
  Qed.

  Lemma consts_wp : wp (constants_token cx) (Forall2 const_item_for (const_defs ds)).
  Proof.
    apply wp_gmap. intros [x v] H. pose proof (good_consts G) as F. rewrite Forall_forall in F. destruct (F _ H) as [gx gv].
    pose proof (sd_consts SD) as C. rewrite Forall_forall in C. specialize (C _ H). cbn [fst snd] in *.
    assert (W : exists c, constant_token (x, v) = GOk c).
    { cbn [constant_token]. rewrite plain_ident by easy. cbn [gbind]. destruct v as [k|y]; cbn [convert_value_token].
      - destruct C as (_ & z & Z & R). assert (D : fits KU32 z \/ ~ fits KU32 z) by (cbn; lia). destruct D as [D|D].
        + rewrite (constant_fits gv Z D). cbn. eauto.
        + rewrite (constant_overflows gv Z D). cbn [gbind]. rewrite (@constant_fits KU64 k z gv Z) by (cbn; lia). cbn. eauto.
      - rewrite plain_ident by exact gv. cbn. eauto. }
    destruct W as [c W]. rewrite W. cbn. now apply const_token_for.
  Qed.

  Definition file_facts (f : file) : Prop :=
    Forall2 item_facts (item_defs true ds) (fi_types f) /\ Forall2 const_item_for (const_defs ds) (fi_consts f).

  Lemma gen_facts : exists f, greturns (fun n => gen_code n cfg ds) (GOk f) /\ file_facts f.
  Proof.
    destruct (gen_total cfg (sd_well_founded SD)) as [r R]. pose proof R as R'. apply greturns_run in R' as (n & E & NF).
    assert (W : wp (gen_code n cfg ds) file_facts).
    { rewrite gen_code_eq. eapply wp_bind; [exact consts_wp|]. intros cs HC. eapply wp_bind; [exact (types_wp n)|].
      intros ts HT. cbn. split; easy. }
    rewrite E in W. destruct r; try easy. now exists a.
  Qed.

  Variable f : file.
  Hypothesis FF : file_facts f.

  (** ** Constants *)
  Lemma find_const x v : first x (const_defs ds) v ->
    exists c, find (fun c => String.eqb (co_name c) x) (fi_consts f) = Some c /\ const_item_for (x, v) c.
  Proof.
    destruct FF as [_ F]. intros (a & b & E & N). rewrite E in F. clear E. revert N F. generalize (fi_consts f).
    induction a as [|[y w] a IH]; intros cs N F; inversion F as [|? c ? cs' h F']; subst; cbn.
    - destruct h as [e h]. cbn in e. rewrite e, String.eqb_refl. exists c. split; [easy|]. split; [easy|exact h].
    - destruct h as [e h]. cbn in e. rewrite e. destruct (String.eqb_spec y x) as [->|]; [exfalso; apply N; now left|].
      apply IH; [|easy]. intros H. apply N. now right.
  Qed.

  Lemma const_more n x r : const_sem f n x = Some r -> forall m, (n <= m)%nat -> const_sem f m x = Some r.
  Proof.
    revert x r. induction n as [|n IH]; intros x r; [discriminate|]. intros H [|m] L; [lia|]. cbn in *.
    destruct (find _ (fi_consts f)) as [c|]; [|discriminate]. destruct (co_value c) as [|y]; [easy|].
    destruct (const_sem f n y) as [[w z]|] eqn:e; [|discriminate]. rewrite (IH _ _ e m ltac:(lia)). easy.
  Qed.

  Lemma const_means x z : In x (map fst (const_defs ds)) -> value_is ds (VIdent x) z ->
    exists w, const_of_name f x = Some (w, z).
  Proof.
    destruct (sd_well_founded SD) as (rank & WR & _).
    assert (H : forall v z, value_is ds v z -> match v with VConst _ => True | VIdent x => In x (map fst (const_defs ds)) ->
      exists p w, NoDup p /\ incl p (map fst (const_defs ds)) /\ (forall y, In y p -> (rank y <= rank x)%nat) /\
        const_sem f (length p) x = Some (w, z) /\ (0 <= z < 2 ^ 32 -> w = false) end).
    { clear x z. induction 1 as [c z ST|x v z F V IH|x v z NI F V IH]; [easy| |now intros]. intros Hx.
      destruct (find_const F) as (c & FC & [En CI]). cbn [snd fst] in CI. destruct v as [k|y].
      - destruct CI as (z' & ST & CV & CW). inversion V as [? ? ST'| |]; subst. rewrite <- (stands_fun ST ST'). exists [x], (co_wide c).
        split; [repeat constructor; easy|]. split; [now intros ? [<-|[]]|]. split; [intros ? [<-|[]]; lia|].
        cbn. rewrite FC, CV. split; [easy|]. intros R. destruct CW as [[-> _]|[_ ?]]; [easy|lia].
      - destruct CI as [CV CW]. pose proof (sd_consts SD) as SC. rewrite Forall_forall in SC.
        pose proof (first_in F) as I. destruct (SC _ I) as (_ & Iy & zz & Vz & R). cbn [snd] in *.
        assert (z = zz) by exact (value_is_fun V Vz). subst zz.
        destruct (IH Iy) as (p & w & ND & INC & RK & CS & W). rewrite (W R) in CS.
        assert (RL : (rank y < rank x)%nat) by (apply WR; now left).
        exists (x :: p), false. split; [constructor; [intros H; specialize (RK _ H); lia|easy]|].
        split; [intros ? [<-|H]; [easy|now apply INC]|]. split; [intros ? [<-|H]; [lia|]; specialize (RK _ H); lia|].
        split; [|easy]. cbn [length const_sem]. rewrite FC, CV, CS, CW. easy. }
    intros Hx V. destruct (H _ _ V Hx) as (p & w & ND & INC & _ & CS & _). exists w. unfold const_of_name.
    apply const_more with (1 := CS). apply NoDup_incl_length in INC; [|easy].
    destruct FF as [_ F]. apply Forall2_len in F. rewrite map_length in INC. lia.
  Qed.

  (** ** Items *)
  Lemma find_item_of x t : first x (type_defs ds) t -> is_typedef t = false ->
    exists i, In i (fi_types f) /\ find_item f (camel x) = Some i /\ item_facts (x, t) i.
  Proof.
    intros FX T. assert (I : In (x, t) (item_defs true ds)).
    { apply filter_In. split; [now apply first_in in FX|]. cbn. now rewrite T. }
    destruct FF as [F _]. pose proof (camel_nodup (proj1 (sd_names SD))) as ND. rewrite map_map in ND. unfold find_item.
    revert I ND F. generalize (fi_types f) (item_defs true ds). intros is l. revert is.
    induction l as [|[y u] l IH]; intros is I ND F; [easy|]. inversion F as [|? i ? is' h F']; subst.
    cbn in ND. inversion ND as [|? ? N ND']; subst. cbn [find]. pose proof h as [En _]. rewrite En. cbn [fst].
    destruct I as [[= -> ->]|I].
    - rewrite String.eqb_refl. exists i. split; [now left|]. split; [easy|exact h].
    - destruct (String.eqb_spec (camel y) (camel x)) as [e|].
      + exfalso. apply N. rewrite e. now apply (in_map (fun p => camel (fst p)) l (x, t)).
      + destruct (IH _ I ND' F') as (j & J1 & J2). exists j. split; [now right|easy].
  Qed.

  Lemma find_enum_facts x t : first x (type_defs ds) t -> is_typedef t = false ->
    exists i, find_item f (camel x) = Some i /\
      match t with
      | TdEnum _ l => exists e, i = IEnum e /\ enum_facts cfg ds l e
      | _ => True
      end.
  Proof.
    intros F T. destruct (find_item_of F T) as (i & _ & H & _ & _ & K). exists i. split; [easy|]. now destruct t.
  Qed.

  Lemma field_ty a ty T : field_sem f a ty = Some T -> exists T', ty_sem f ty = Some T'.
  Proof.
    destruct a; cbn.
    - eauto.
    - destruct ty as [| | | | | |t len cast| | | | |]; try discriminate. destruct t as [[] []| | | | | | | | | | |]; try discriminate.
      cbn. destruct (array_len f len cast); [cbn; eauto|discriminate].
    - destruct ty as [| | | | | | |t| | | |]; try discriminate. destruct t as [[] []| | | | | | | | | | |]; try discriminate. cbn. eauto.
    - destruct ty as [| | | | |n| | | | | |]; try discriminate. unfold find_enum, ty_sem. destruct (find_item f n); [eauto|discriminate].
  Qed.

  Lemma dkind_field d k ty : dkind cfg ds d k -> dtok ds d ty (op_of k) -> exists T, field_sem f (attr_of k) ty = Some T.
  Proof. intros D T. exact (proj2 (proj2 (kind_sem IN find_enum_facts const_means) d k D ty _ T)). Qed.
  Lemma tkind_field t k ty : tkind cfg ds t k -> tok ds t ty (op_of k) -> exists T, field_sem f (attr_of k) ty = Some T.
  Proof. intros D T. exact (proj2 (proj1 (kind_sem IN find_enum_facts const_means) t k D ty _ T)). Qed.
  Lemma dkind_ty d k ty : dkind cfg ds d k -> dtok ds d ty (op_of k) -> exists T, ty_sem f ty = Some T.
  Proof. intros D T. destruct (dkind_field D T) as [T' H]. now apply field_ty in H. Qed.
End File.
