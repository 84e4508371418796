(** Bounds, termination and absence of panics of the generator model. *)
From Verif Require Import Base RustTypes Nom NomFacts Keyword Ast ParserModel SpecGrammar SpecParse
  ConstProofs CaseModel SpecCase CaseProofs RustAst GenModel SpecGen GenFacts.
Set Implicit Arguments.
Unset Strict Implicit.
Local Open Scope list_scope.

(** ** Every function is monotone in its bound *)
Section Mono.
  Variables (cfg : config) (ds : list definition).
  Let cx := ctx cfg ds.

  Lemma primitive_mono (rt : nat -> string -> gres (rty * opaque_type)) t :
    (forall x, mono (fun n => rt n x)) -> mono (fun n => convert_primitive_token (rt n) t).
  Proof. intros H. destruct t; try (now intros n m _ _). apply H. Qed.
  Lemma type_mono (rt : nat -> string -> gres (rty * opaque_type)) d :
    (forall x, mono (fun n => rt n x)) -> mono (fun n => convert_type_token (rt n) d).
  Proof.
    intros H. destruct d; cbn [convert_type_token]; try (now intros n m _ _);
      (apply mono_bind; [now apply primitive_mono|]); intros; try destruct a; apply mono_const.
  Qed.
  Lemma resolve_type_mono x : mono (fun n => resolve_type_token cx n x).
  Proof.
    intros n m L. revert m L x. induction n as [|n IH]; intros m L x H; [now cbn in H|].
    destruct m as [|m]; [lia|]. cbn [resolve_type_token] in *.
    destruct (remove_typedef (cx_config cx)); [|easy].
    destruct (assoc String.eqb x (typedefs cx)) as [[d| | |]|]; try easy.
    assert (M : mono (fun k => convert_type_token (fun y => if (k =? 0)%nat then resolve_type_token cx n y
                                                 else resolve_type_token cx m y) d)).
    { apply (@type_mono (fun k y => if (k =? 0)%nat then resolve_type_token cx n y
                                    else resolve_type_token cx m y)).
      intros y a b Lab. destruct a as [|a]; destruct b as [|b]; try lia; try easy. cbn.
      intros N. apply IH; [lia|easy]. }
    specialize (M 0%nat 1%nat ltac:(lia)). cbn beta in M. cbn [Nat.eqb] in M.
    assert (K : convert_type_token (resolve_type_token cx n) d <> GFuel)
      by (intros e; rewrite e in H; now apply H).
    specialize (M K). change (fun y => resolve_type_token cx m y) with (resolve_type_token cx m) in M.
    change (fun y => resolve_type_token cx n y) with (resolve_type_token cx n) in M. now rewrite M.
  Qed.
  Lemma type_token_mono d : mono (fun n => convert_type_token (resolve_type_token cx n) d).
  Proof. apply (@type_mono (resolve_type_token cx)). intros. apply resolve_type_mono. Qed.
  Lemma prim_token_mono t : mono (fun n => convert_primitive_token (resolve_type_token cx n) t).
  Proof. apply (@primitive_mono (resolve_type_token cx)). intros. apply resolve_type_mono. Qed.

  Lemma mono_if {A} (b : bool) (f g : nat -> gres A) : mono f -> mono g -> mono (fun n => if b then f n else g n).
  Proof. now destruct b. Qed.

  Lemma enum_mono name l : mono (fun n => convert_enum_token cx n name l).
  Proof.
    unfold convert_enum_token. apply mono_bind.
    - apply mono_gmap. intros a _. apply mono_bind; [apply resolve_value_mono|intros; apply mono_const].
    - intros. apply mono_const.
  Qed.
  Lemma field_mono name d : mono (fun n => struct_field cx n name d).
  Proof.
    unfold struct_field. destruct (decl_name d); [|apply mono_const].
    apply mono_bind; [apply type_token_mono|]. intros. apply mono_const.
  Qed.
  Lemma struct_mono name l : mono (fun n => convert_struct_token cx n name l).
  Proof.
    unfold convert_struct_token. apply mono_bind; [|intros; apply mono_const].
    apply mono_gmap. intros. apply field_mono.
  Qed.

  Lemma case_mono v d cond : mono (fun n => convert_case_token cx n v d cond).
  Proof.
    unfold convert_case_token. apply mono_bind; [apply mono_const|]. intros name.
    apply mono_bind.
    - intros n m L H.
      destruct (convert_primitive_token (resolve_type_token cx n) cond) as [a| | |] eqn:E;
        [..|now cbn in H]; rewrite (prim_token_mono L) by congruence; rewrite E; easy.
    - intros c. apply mono_bind; [apply type_token_mono|]. intros. apply mono_const.
  Qed.
  Lemma values_mono cond l : forall s acc, mono (fun n => union_values cx n cond s l acc).
  Proof.
    induction l as [|[[e d] v] l IH]; intros s acc; cbn [union_values]; [apply mono_const|].
    apply mono_bind; [apply mono_const|]. intros fill.
    apply mono_bind; [apply case_mono|]. intros ct.
    apply mono_bind; [apply mono_const|]. intros bv.
    apply mono_bind; [apply mono_const|]. intros s'. apply IH.
  Qed.
  Lemma bool_case_mono cond b specs acc : mono (fun n => bool_case cx n cond b specs acc).
  Proof.
    unfold bool_case. destruct (find _ specs) as [[vs d]|].
    - destruct (find _ vs); [|apply mono_const].
      apply mono_bind; [apply case_mono|]. intros. apply mono_const.
    - apply mono_const.
  Qed.
  Lemma default_mono o acc : mono (fun n => union_default cx n o acc).
  Proof.
    unfold union_default. destruct o; [|apply mono_const].
    apply mono_bind; [apply type_token_mono|]. intros. apply mono_const.
  Qed.
  Lemma union_mono name u : mono (fun n => convert_union_token cx n name u).
  Proof.
    destruct u as [c specs dflt]. cbn [convert_union_token].
    apply mono_bind; [apply mono_const|]. intros ni.
    apply mono_bind; [apply mono_const|]. intros cond.
    apply mono_bind.
    - destruct cond; try apply mono_const.
      + apply mono_bind; [|intros; apply values_mono].
        apply mono_gmap. intros [vs d] _. apply mono_gmap. intros v _.
        apply mono_bind; [apply resolve_value_mono|intros; apply mono_const].
      + apply mono_bind; [apply bool_case_mono|]. intros p.
        apply mono_bind; [apply bool_case_mono|]. intros. apply mono_const.
      + apply mono_bind; [|intros; apply values_mono].
        apply mono_gmap. intros [vs d] _. apply mono_gmap. intros v _.
        apply mono_bind; [apply resolve_value_mono|intros; apply mono_const].
    - intros p. apply mono_bind; [apply default_mono|]. intros. apply mono_const.
  Qed.
  Lemma item_mono t : mono (fun n => type_token_of cx n t).
  Proof.
    destruct t as [x [d|y l|y l|y u]]; cbn [type_token_of].
    - destruct (remove_typedef _); [apply mono_const|].
      apply mono_bind; [apply type_token_mono|]. intros. apply mono_const.
    - apply mono_bind; [apply enum_mono|]. intros. apply mono_const.
    - apply mono_bind; [apply struct_mono|]. intros. apply mono_const.
    - apply mono_bind; [apply union_mono|]. intros. apply mono_const.
  Qed.
  Lemma types_mono : mono (fun n => types_token cx n).
  Proof.
    unfold types_token. apply mono_bind; [|intros; apply mono_const].
    apply mono_gmap. intros. apply item_mono.
  Qed.
End Mono.

Lemma gen_mono cfg ds : mono (fun n => gen_code n cfg ds).
Proof.
  intros n m L H. rewrite !gen_code_eq in *. revert n m L H.
  apply (@mono_bind _ _ (fun _ => constants_token (ctx cfg ds))); [apply mono_const|]. intros c.
  apply (@mono_bind _ _ (fun n => types_token (ctx cfg ds) n)); [apply types_mono|]. intros. apply mono_const.
Qed.

(** ** Termination *)
Definition total {A} (f : nat -> gres A) : Prop := exists r, greturns f r.

Lemma total_const {A} (r : gres A) : r <> GFuel -> total (fun _ => r).
Proof. intros. exists r. now apply greturns_const. Qed.
Lemma total_bind {A B} (f : nat -> gres A) (g : nat -> A -> gres B) :
  total f -> (forall a, total (fun n => g n a)) -> total (fun n => gbind (f n) (g n)).
Proof.
  intros [r H] K. destruct r as [a|e| |].
  - destruct (K a) as [s Ks]. exists s. eapply greturns_bind; eauto.
  - exists (GErr e). now apply greturns_bind_err.
  - exists GPanic. destruct H as [_ [N H]]. split; [easy|]. exists N. intros n L. now rewrite H.
  - destruct H. congruence.
Qed.
Ltac tconst := eexists; split; [|exists 0%nat; intros; cbn; reflexivity]; try easy.
Lemma total_gmap {A B} (f : nat -> A -> gres B) l :
  (forall a, In a l -> total (fun n => f n a)) -> total (fun n => gmap (f n) l).
Proof.
  induction l as [|a l IH]; intros H; [tconst|]. cbn [gmap].
  apply total_bind; [apply H; now left|]. intros b.
  apply total_bind; [apply IH; intros; apply H; now right|]. intros. now apply total_const.
Qed.
Lemma total_mono {A} (f : nat -> gres A) : mono f -> (exists n, f n <> GFuel) -> total f.
Proof. intros M [n H]. exists (f n). now apply greturns_mono with n. Qed.
Lemma gmap_nofuel {A B} (f : A -> gres B) l : (forall a, f a <> GFuel) -> gmap f l <> GFuel.
Proof.
  intros H. induction l as [|a l IH]; [easy|]. cbn. specialize (H a). destruct (f a); try easy.
  cbn. now destruct (gmap f l).
Qed.
Lemma gbind_nofuel {A B} (r : gres A) (f : A -> gres B) : r <> GFuel -> (forall a, f a <> GFuel) -> gbind r f <> GFuel.
Proof. destruct r; cbn; intros; auto; easy. Qed.

Lemma ident_nofuel t : ident_new t <> GFuel.
Proof. unfold ident_new. now destruct (ident_text t). Qed.
Lemma camel_nofuel x : upper_camel_case_ident x <> GFuel.
Proof. apply ident_nofuel. Qed.
Lemma format_nofuel t : format_ident t <> GFuel.
Proof.
  unfold format_ident, ident_new_raw, ident_new. destruct (strip _ t); destruct (_ : bool); easy.
Qed.
Lemma constant_nofuel k c : constant_value k c <> GFuel.
Proof. destruct (constant_result k c) as [[z E]|E]; rewrite E; easy. Qed.
Lemma vtoken_nofuel k b v : convert_value_token k b v <> GFuel.
Proof.
  destruct v; cbn; apply gbind_nofuel; try easy; [apply constant_nofuel|].
  destruct b; [apply camel_nofuel|apply ident_nofuel].
Qed.
Lemma reserved_nofuel z : reserved z <> GFuel.
Proof. apply ident_nofuel. Qed.
Lemma succ_nofuel c s z : succ_checked c s z <> GFuel.
Proof. unfold succ_checked. destruct (z <? _); [easy|]. now destruct c. Qed.

Section Total.
  Variables (cfg : config) (ds : list definition).
  Let cx := ctx cfg ds.
  Hypothesis W : well_founded_names ds.

  Lemma value_total k v : total (fun n => resolve_value cx n k v).
  Proof.
    destruct W as (rank & R & _). apply total_mono; [apply resolve_value_mono|].
    destruct v as [c|x]; [exists 0%nat; apply constant_nofuel|].
    exists (S (rank x)). cbn [resolve_value]. eapply resolve_total; [exact R|lia].
  Qed.

  Lemma primitive_total (rt : nat -> string -> gres (rty * opaque_type)) t :
    (forall x, t = TsIdent x -> total (fun n => rt n x)) -> total (fun n => convert_primitive_token (rt n) t).
  Proof. intros H. destruct t; try (now apply H); tconst. Qed.
  Lemma type_total (rt : nat -> string -> gres (rty * opaque_type)) d :
    (forall x, mentions d = Some (TsIdent x) -> total (fun n => rt n x)) -> total (fun n => convert_type_token (rt n) d).
  Proof.
    intros H.
    assert (P : forall t, mentions d = Some t -> total (fun n => convert_primitive_token (rt n) t)).
    { intros t M. apply primitive_total. intros y ->. now apply H. }
    destruct d; cbn [convert_type_token mentions] in *; try now (apply total_const).
    - apply total_bind; [now apply P|]. intros. now apply total_const.
    - apply total_bind; [now apply P|]. intros []. apply total_const.
      apply gbind_nofuel; [apply vtoken_nofuel|easy].
    - apply total_bind; [now apply P|]. intros []. now apply total_const.
    - apply total_const. apply gbind_nofuel; [apply vtoken_nofuel|easy].
    - apply total_bind; [now apply P|]. intros []. now apply total_const.
  Qed.
  Lemma resolve_type_total x : total (fun n => resolve_type_token cx n x).
  Proof.
    destruct W as (rank & _ & R).
    apply total_mono; [apply resolve_type_mono|].
    assert (H : forall k x, (rank x < k)%nat -> resolve_type_token cx k x <> GFuel).
    2: { exists (S (rank x)). apply H. lia. }
    clear x. induction k as [|k IH]; intros x L; [lia|]. cbn [resolve_type_token].
    assert (D : gbind (upper_camel_case_ident x) (fun name => GOk (YName name, OpNone)) <> GFuel)
      by (apply gbind_nofuel; [apply camel_nofuel|easy]).
    destruct (remove_typedef (cx_config cx)); [|exact D].
    destruct (assoc String.eqb x (typedefs cx)) as [[d| | |]|] eqn:e; try exact D.
    apply assoc_first, first_in in e.
    apply gbind_nofuel; [|intros []; easy].
    assert (P : forall t, mentions d = Some t -> convert_primitive_token (resolve_type_token cx k) t <> GFuel).
    { intros t M. destruct t; try easy. cbn. apply IH. specialize (R _ _ _ e M). lia. }
    destruct d; cbn [convert_type_token mentions] in *; try easy;
      (apply gbind_nofuel; [try (now apply P); apply vtoken_nofuel|]; intros []); try easy.
    apply gbind_nofuel; [apply vtoken_nofuel|easy].
  Qed.
  Lemma type_token_total d : total (fun n => convert_type_token (resolve_type_token cx n) d).
  Proof. apply (@type_total (resolve_type_token cx)). intros. apply resolve_type_total. Qed.
  Lemma prim_token_total t : total (fun n => convert_primitive_token (resolve_type_token cx n) t).
  Proof. apply (@primitive_total (resolve_type_token cx)). intros. apply resolve_type_total. Qed.

  Lemma enum_values_nofuel l : forall s, enum_values cx s l <> GFuel.
  Proof.
    induction l as [|[e x] l IH]; intros s; [easy|]. cbn [enum_values].
    apply gbind_nofuel.
    - destruct (enum_complement_index _); [|easy]. apply gmap_nofuel. intros.
      apply gbind_nofuel; [apply reserved_nofuel|easy].
    - intros fill. apply gbind_nofuel; [apply camel_nofuel|]. intros it.
      apply gbind_nofuel; [apply succ_nofuel|]. intros s'. apply gbind_nofuel; [apply IH|easy].
  Qed.
  Lemma enum_total name l : total (fun n => convert_enum_token cx n name l).
  Proof.
    unfold convert_enum_token. apply total_bind.
    - apply total_gmap. intros a _. apply total_bind; [apply value_total|intros; now apply total_const].
    - intros ix. apply total_const. apply gbind_nofuel; [apply camel_nofuel|]. intros ni.
      apply gbind_nofuel; [apply enum_values_nofuel|]. intros vs.
      apply gbind_nofuel.
      + apply gmap_nofuel. intros. apply gbind_nofuel; [apply camel_nofuel|easy].
      + intros [|[]]; easy.
  Qed.
  Lemma field_total name d : total (fun n => struct_field cx n name d).
  Proof.
    unfold struct_field. destruct (decl_name d); [|now apply total_const].
    apply total_bind; [apply type_token_total|]. intros o. apply total_const.
    apply gbind_nofuel; [now destruct o|]. intros [ty op].
    apply gbind_nofuel; [apply format_nofuel|easy].
  Qed.
  Lemma struct_total name l : total (fun n => convert_struct_token cx n name l).
  Proof.
    unfold convert_struct_token. apply total_bind.
    - apply total_gmap. intros. apply field_total.
    - intros. apply total_const. apply gbind_nofuel; [apply camel_nofuel|easy].
  Qed.
  Lemma case_total v d cond : total (fun n => convert_case_token cx n v d cond).
  Proof.
    unfold convert_case_token. apply total_bind; [apply total_const, vtoken_nofuel|]. intros name.
    apply total_bind.
    - destruct (prim_token_total cond) as [r [ne [N H]]].
      assert (F : (match r with
             | GErr _ => match cond with
                         | TsIdent c => gbind (upper_camel_case_ident c) (fun x => GOk (YName x))
                         | _ => GPanic
                         end
             | r => gbind r (fun '(ty, _) => GOk ty)
             end) <> GFuel).
      { destruct r as [[]| | |]; try easy. destruct cond; try easy.
        apply gbind_nofuel; [apply camel_nofuel|easy]. }
      eexists. split; [exact F|]. exists N. intros n L. rewrite H by easy. now destruct r.
    - intros c. apply total_bind; [apply type_token_total|]. intros. now apply total_const.
  Qed.
  Lemma reserved_variant_nofuel z : reserved_variant z <> GFuel.
  Proof. apply gbind_nofuel; [apply reserved_nofuel|easy]. Qed.
  Lemma values_total cond l : forall s acc, total (fun n => union_values cx n cond s l acc).
  Proof.
    induction l as [|[[e d] v] l IH]; intros s acc; cbn [union_values]; [now apply total_const|].
    apply total_bind.
    { apply total_const. destruct (union_complement_index _); [|easy].
      apply gmap_nofuel, reserved_variant_nofuel. }
    intros fill. apply total_bind; [apply case_total|]. intros ct.
    apply total_bind.
    { apply total_const. destruct (is_enum_type cx cond); [|easy]. destruct cond; try easy.
      apply gbind_nofuel; [apply camel_nofuel|]. intros c. destruct v; [easy|].
      apply gbind_nofuel; [apply camel_nofuel|easy]. }
    intros bv. apply total_bind; [apply total_const, succ_nofuel|]. intros s'. apply IH.
  Qed.
  Lemma bool_case_total cond b specs acc : total (fun n => bool_case cx n cond b specs acc).
  Proof.
    unfold bool_case. destruct (find _ specs) as [[vs d]|].
    - destruct (find _ vs); [|now apply total_const].
      apply total_bind; [apply case_total|]. intros. now apply total_const.
    - apply total_const. destruct (union_complement_index _); [|easy].
      apply gbind_nofuel; [apply reserved_variant_nofuel|easy].
  Qed.
  Lemma default_total o acc : total (fun n => union_default cx n o acc).
  Proof.
    unfold union_default. destruct o; [|now apply total_const].
    apply total_bind; [apply type_token_total|]. intros. now apply total_const.
  Qed.
  Lemma union_total name u : total (fun n => convert_union_token cx n name u).
  Proof.
    destruct u as [c specs dflt]. cbn [convert_union_token].
    apply total_bind; [apply total_const, camel_nofuel|]. intros ni.
    apply total_bind; [apply total_const; now destruct c|]. intros cond.
    apply total_bind.
    - destruct cond; try now apply total_const.
      + apply total_bind; [|intros; apply values_total].
        apply total_gmap. intros [vs d] _. apply total_gmap. intros v _.
        apply total_bind; [apply value_total|intros; now apply total_const].
      + apply total_bind; [apply bool_case_total|]. intros p.
        apply total_bind; [apply bool_case_total|]. intros. now apply total_const.
      + apply total_bind; [|intros; apply values_total].
        apply total_gmap. intros [vs d] _. apply total_gmap. intros v _.
        apply total_bind; [apply value_total|intros; now apply total_const].
    - intros p. apply total_bind; [apply default_total|]. intros p'. apply total_const.
      now destruct (up_default p').
  Qed.
  Lemma item_total t : total (fun n => type_token_of cx n t).
  Proof.
    destruct t as [x [d|y l|y l|y u]]; cbn [type_token_of].
    - destruct (remove_typedef _); [now apply total_const|].
      apply total_bind; [apply type_token_total|]. intros o. apply total_const.
      apply gbind_nofuel; [now destruct o|]. intros [ty []]; try easy.
      apply gbind_nofuel; [apply camel_nofuel|easy].
    - apply total_bind; [apply enum_total|]. intros. now apply total_const.
    - apply total_bind; [apply struct_total|]. intros. now apply total_const.
    - apply total_bind; [apply union_total|]. intros. now apply total_const.
  Qed.
  Lemma types_total : total (fun n => types_token cx n).
  Proof.
    unfold types_token. apply total_bind; [|intros; now apply total_const].
    apply total_gmap. intros. apply item_total.
  Qed.
  Lemma constants_nofuel : constants_token cx <> GFuel.
  Proof.
    apply gmap_nofuel. intros [x v]. cbn. apply gbind_nofuel; [apply ident_nofuel|]. intros ni.
    pose proof (@vtoken_nofuel KU32 false v). destruct (convert_value_token KU32 false v); try easy.
    apply gbind_nofuel; [apply vtoken_nofuel|easy].
  Qed.
  Lemma gen_total : total (fun n => gen_code n cfg ds).
  Proof.
    enough (T : total (fun n => gbind (constants_token cx) (fun consts =>
      gbind (types_token cx n) (fun types =>
      let tuple := enum_impl_indexer cfg || union_impl_indexer cfg || union_impl_union cfg in
      let indexer := enum_impl_indexer cfg || union_impl_indexer cfg in
      GOk (File ((if tuple then [UseSerializeTuple] else []) ++
                 (if indexer then [UseIndexer] else []) ++
                 (if union_impl_union cfg then [UseUnion] else []))
                consts types))))).
    { destruct T as [r T]. exists r. eapply greturns_ext; [|exact T]. intros. symmetry. apply gen_code_eq. }
    apply total_bind; [apply total_const, constants_nofuel|]. intros c.
    apply total_bind; [apply types_total|]. intros. now apply total_const.
  Qed.
End Total.
