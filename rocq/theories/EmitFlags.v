(** Flags, imports and defaults of the generated code. *)
From Coq Require Import Permutation.
From Verif Require Import Base RustTypes Nom NomFacts Keyword Ast ParserModel SpecGrammar SpecParse ParseSound ParserLemmas
  ConstProofs CaseModel SpecCase CaseProofs RustAst GenModel SpecGen SpecItems GenFacts GenTotal GenLemmas
  SpecXdl GenSem SpecWire WireBase WireEnum WireBack WireEnums SpecEmit EmitBase EmitProofs.
Set Implicit Arguments.
Unset Strict Implicit.
Local Open Scope list_scope.

(** ** Flags *)
Section Flags.
  Variables (cfg cfg' : config) (ds : list definition) (n : nat).
  Hypothesis RM : remove_typedef cfg = remove_typedef cfg'.
  Let cx := ctx cfg ds.
  Let cx' := ctx cfg' ds.

  Lemma flag_resolve m x : resolve_type_token cx m x = resolve_type_token cx' m x.
  Proof.
    revert x. induction m as [|m IH]; intros x; cbn [resolve_type_token]; [easy|]. cbn [cx_config cx cx' ctx typedefs]. rewrite RM.
    destruct (remove_typedef cfg'); [|easy]. destruct (assoc _ x (type_defs ds)) as [[d| | |]|]; try easy.
    fold cx. fold cx'. now rewrite (same_type IH).
  Qed.
  Lemma flag_name k x : resolve_name cx n k x = resolve_name cx' n k x.
  Proof. now apply resolve_name_ext. Qed.

  Section Enum.
    Hypothesis F1 : enum_impl_std_trait cfg = enum_impl_std_trait cfg'.
    Hypothesis F2 : enum_impl_indexer cfg = enum_impl_indexer cfg'.
    Hypothesis F3 : overflow_checks cfg = overflow_checks cfg'.
    Lemma flag_enum_values s l : enum_values cx s l = enum_values cx' s l.
    Proof.
      revert s. induction l as [|[e x] l IH]; intros s; cbn [enum_values]; [easy|]. unfold enum_complement_index.
      cbn [cx_config cx cx' ctx]. rewrite F1, F2, F3.
      apply gbind_ext. intros ? _. apply gbind_ext. intros ? _. apply gbind_ext. intros z _. fold cx. fold cx'. now rewrite IH.
    Qed.
    Lemma flag_enum x l : convert_enum_token cx n x l = convert_enum_token cx' n x l.
    Proof.
      unfold convert_enum_token.
      rewrite (@gmap_ext _ _ (fun a => z <~ resolve_value cx n KI32 (as_value a);; GOk (z, as_name a))
                             (fun a => z <~ resolve_value cx' n KI32 (as_value a);; GOk (z, as_name a)))
        by (intros ? _; unfold resolve_value; destruct (as_value _); [easy|now rewrite flag_name]).
      apply gbind_ext. intros ix _. apply gbind_ext. intros nm _. rewrite flag_enum_values. cbn [cx_config cx cx' ctx]. now rewrite F1, F2.
    Qed.
  End Enum.

  Lemma flag_struct x l : enum_impl_std_trait cfg = enum_impl_std_trait cfg' ->
    convert_struct_token cx n x l = convert_struct_token cx' n x l.
  Proof.
    intros F. unfold convert_struct_token. f_equal. apply gmap_ext. intros d _.
    unfold struct_field. destruct (decl_name d); [|easy]. rewrite (same_type (flag_resolve n)). cbn [cx_config cx cx' ctx]. rewrite F. reflexivity.
  Qed.

  Section Union.
    Hypothesis F1 : union_impl_union cfg = union_impl_union cfg'.
    Hypothesis F2 : union_impl_indexer cfg = union_impl_indexer cfg'.
    Hypothesis F3 : overflow_checks cfg = overflow_checks cfg'.
    Lemma flag_case v d c : convert_case_token cx n v d c = convert_case_token cx' n v d c.
    Proof.
      unfold convert_case_token. rewrite (same_type (flag_resolve n)), (same_primitive (flag_resolve n)). unfold union_complement_index.
      cbn [cx_config cx cx' ctx]. now rewrite F1, F2.
    Qed.
    Lemma flag_union_values c s l acc : union_values cx n c s l acc = union_values cx' n c s l acc.
    Proof.
      revert s acc. induction l as [|[[e d] v] l IH]; intros s acc; cbn [union_values]; [easy|]. rewrite flag_case. unfold union_complement_index.
      cbn [cx_config cx cx' ctx]. rewrite F1, F2, F3. fold cx. fold cx'. change (is_enum_type cx c) with (is_enum_type cx' c).
      apply gbind_ext. intros ? _. apply gbind_ext. intros ? _. apply gbind_ext. intros ? _. apply gbind_ext. intros z _. apply IH.
    Qed.
    Lemma flag_bool c b specs acc : bool_case cx n c b specs acc = bool_case cx' n c b specs acc.
    Proof.
      unfold bool_case, union_complement_index. cbn [cx_config cx cx' ctx]. rewrite F1, F2. fold cx. fold cx'.
      destruct (find _ specs) as [[vs d]|]; [|easy]. destruct (find _ vs); [|easy]. now rewrite flag_case.
    Qed.
    Lemma flag_default o acc : union_default cx n o acc = union_default cx' n o acc.
    Proof.
      unfold union_default. destruct o; [|easy]. rewrite (same_type (flag_resolve n)). cbn [cx_config cx cx' ctx]. now rewrite F1.
    Qed.
    Lemma flag_union x u : convert_union_token cx n x u = convert_union_token cx' n x u.
    Proof.
      destruct u as [c specs dflt]. unfold convert_union_token. apply gbind_ext. intros nm _. apply gbind_ext. intros t _.
      match goal with |- gbind ?a _ = gbind ?b _ => assert (H : a = b); [|rewrite H] end.
      { assert (V : gmap (fun s => match s with CaseSpec vs d => gmap (fun v => z <~ resolve_value cx n KU32 v;; GOk (z, d, v)) vs end) specs =
                    gmap (fun s => match s with CaseSpec vs d => gmap (fun v => z <~ resolve_value cx' n KU32 v;; GOk (z, d, v)) vs end) specs).
        { apply gmap_ext. intros [vs d] _. apply gmap_ext. intros v _. unfold resolve_value. destruct v; [easy|]. now rewrite flag_name. }
        destruct t; try easy.
        - rewrite V. apply gbind_ext. intros; apply flag_union_values.
        - rewrite flag_bool. apply gbind_ext. intros p _. now rewrite flag_bool.
        - rewrite V. apply gbind_ext. intros; apply flag_union_values. }
      apply gbind_ext. intros p _. rewrite flag_default. apply gbind_ext. intros q _. cbn [cx_config cx cx' ctx]. now rewrite F1, F2.
    Qed.
  End Union.

  (** the items of one kind *)
  Lemma flag_items {B} (sel : type_item -> list B) f f' : gen_code n cfg ds = GOk f -> gen_code n cfg' ds = GOk f' ->
    (forall p l l', type_token_of cx n p = GOk l -> type_token_of cx' n p = GOk l' -> flat_map sel l = flat_map sel l') ->
    flat_map sel (fi_types f) = flat_map sel (fi_types f').
  Proof.
    intros H H' S. apply gen_ok_parts in H as [_ H], H' as [_ H']. unfold types_token in *.
    apply gbind_ok in H as (ls & H & E), H' as (ls' & H' & E'). injection E as <-. injection E' as <-.
    fold cx in H. fold cx' in H'. change (typedefs cx) with (type_defs ds) in H. change (typedefs cx') with (type_defs ds) in H'.
    apply gmap_ok in H, H'. revert ls' H'. induction H as [|p l ps ls h H IH]; intros ls' H'; inversion H' as [|? l' ? ls'' h' H'']; subst; [easy|].
    cbn. rewrite !flat_map_app. f_equal; [now apply S with p|now apply IH].
  Qed.
  Lemma flag_consts f f' : gen_code n cfg ds = GOk f -> gen_code n cfg' ds = GOk f' -> fi_consts f = fi_consts f'.
  Proof.
    intros H H'. apply gen_ok_parts in H as [H _], H' as [H' _]. unfold constants_token in *. cbn [constants ctx] in *. congruence.
  Qed.
End Flags.

Ltac item_tokens := intros [x [d|y l0|y l0|y u]] l l' T T'; cbn [type_token_of] in T, T';
  [cbn in T, T'; inversion T; inversion T'; easy| | |].

Lemma rpcgen_runs fl checks src f : greturns (fun n => rpcgen n fl checks src) (GOk f) ->
  exists N ds, forall n, (N <= n)%nat -> parse n src = GOk ds /\ gen_code n (main_config fl checks) ds = GOk f.
Proof.
  intros [_ [N H]]. pose proof (H N (le_n N)) as H0. unfold rpcgen in H0. apply gbind_ok in H0 as (ds & P & _).
  assert (PR : greturns (fun n => parse n src) (GOk ds)) by (apply c31; exact (parse_sound P)).
  destruct PR as [_ [N2 PR]].
  exists (Nat.max N N2), ds. intros n L. specialize (H n ltac:(lia)). specialize (PR n ltac:(lia)). split; [exact PR|].
  unfold rpcgen in H. apply gbind_ok in H as (ds' & P' & G). congruence.
Qed.

Lemma flags_named fl fl' checks src f f' : greturns (fun n => rpcgen n fl checks src) (GOk f) ->
  greturns (fun n => rpcgen n fl' checks src) (GOk f') ->
  fi_consts f = fi_consts f' /\
  (use_std_trait fl = use_std_trait fl' -> structs f = structs f') /\
  (use_std_trait fl = use_std_trait fl' -> (use_std_trait fl = false -> use_indexer fl = use_indexer fl') -> enums f = enums f') /\
  (use_union fl = use_union fl' ->
   (use_union fl = false -> use_extra_trait fl || use_indexer fl = use_extra_trait fl' || use_indexer fl') -> unions f = unions f').
Proof.
  intros R R'. apply rpcgen_runs in R as (N & ds & R), R' as (N' & ds' & R').
  destruct (R (Nat.max N N') ltac:(lia)) as [P G], (R' (Nat.max N N') ltac:(lia)) as [P' G']. rewrite P in P'. injection P' as <-.
  assert (RM : remove_typedef (main_config fl checks) = remove_typedef (main_config fl' checks)) by easy.
  split; [exact (flag_consts G G')|]. split; [|split].
  - intros E. apply (flag_items G G'). item_tokens.
    + apply gbind_ok in T as (e & _ & [= <-]), T' as (e' & _ & [= <-]). easy.
    + rewrite (flag_struct ds _ RM) in T by easy. rewrite T in T'. now injection T' as <-.
    + apply gbind_ok in T as (e & _ & [= <-]), T' as (e' & _ & [= <-]). easy.
  - intros E1 E2. apply (flag_items G G'). item_tokens.
    + rewrite (flag_enum (cfg' := main_config fl' checks)) in T; [rewrite T in T'; now injection T' as <-|easy..|cbn|easy].
      rewrite <- E1. destruct (use_std_trait fl); [easy|]. cbn. now apply E2.
    + apply gbind_ok in T as (e & _ & [= <-]), T' as (e' & _ & [= <-]). easy.
    + apply gbind_ok in T as (e & _ & [= <-]), T' as (e' & _ & [= <-]). easy.
  - intros E1 E2. apply (flag_items G G'). item_tokens.
    + apply gbind_ok in T as (e & _ & [= <-]), T' as (e' & _ & [= <-]). easy.
    + apply gbind_ok in T as (e & _ & [= <-]), T' as (e' & _ & [= <-]). easy.
    + rewrite (flag_union ds _ RM) in T; [rewrite T in T'; now injection T' as <-|easy|cbn|easy].
      rewrite <- E1. destruct (use_union fl); [easy|]. cbn. now apply E2.
Qed.
