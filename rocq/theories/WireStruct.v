(** Meaning of generated structs. *)
From Verif Require Import Base RustTypes SpecXdr SpecTypes XdrFacts Nom NomFacts Keyword Ast ParserModel
  SpecGrammar SpecParse ConstProofs CaseModel SpecCase CaseProofs RustAst GenModel SpecGen GenFacts
  GenPanic SpecItems GenLemmas SpecXdl GenSem WireBase WireEnum WireTok.
Set Implicit Arguments.
Unset Strict Implicit.
Local Open Scope list_scope.

Lemma word_reserved x : In x rust_words -> rust_reserved x = true.
Proof.
  intros H. apply reserved_in. unfold rust_words in H. unfold KEYWORDS_RUST. cbn [In] in *. tauto.
Qed.
Lemma field_ident_name x : ~ In x unusable -> rident_name (field_ident x) = snake x.
Proof.
  intros N. unfold field_ident. destruct (rust_reserved x) eqn:e; [|easy].
  destruct (snake_raw e N) as [_ H]. now rewrite H.
Qed.
Lemma snaked_snake x : snaked (chars x) (chars (snake x)).
Proof. apply snake_exact. unfold snake. now rewrite list_ascii_of_string_of_list_ascii. Qed.

Lemma small_us c : small c = underscore -> c = underscore.
Proof. all_chars c; (reflexivity || discriminate). Qed.
Lemma field_ident_ok x : SpecXdl.field_name_ok x -> rident_ok (field_ident x).
Proof.
  intros [N W]. unfold field_ident. destruct (rust_reserved x) eqn:e; cbn; [easy|]. split.
  - destruct W as [W|W]; [apply word_reserved in W; congruence|]. apply W. apply snaked_snake.
  - intros E. apply N. do 4 right. left. pose proof (snaked_snake x) as S. rewrite E in S. cbn in S.
    inversion S as [|c t u H]; subst. inversion H; subst.
    assert (c = underscore) by now apply small_us. subst c.
    rewrite <- (string_of_list_ascii_of_string x), <- H0. reflexivity.
Qed.

Section Struct.
  Variables (cfg : config) (ds : list definition).
  Hypothesis G : good_spec ds.
  Hypothesis RM : remove_typedef cfg = true.
  Hypothesis NT : NoDup (map fst (type_defs ds)).
  Hypothesis IN : forall x t, In (x, t) (type_defs ds) -> is_typedef t = false -> type_name_ok x.
  Let cx := ctx cfg ds.

  Lemma nodup_first x t : In (x, t) (type_defs ds) -> first x (type_defs ds) t.
  Proof. intros H. apply assoc_first. now apply assoc_in_nodup. Qed.
  Lemma not_taken x t y : In (x, t) (type_defs ds) -> is_typedef t = false -> In y taken -> camel y = y -> x <> y.
  Proof.
    intros H T I C ->. destruct (IN H T) as (_ & _ & N). apply (N y I). apply camel_of_iff. now rewrite C.
  Qed.

  Lemma enum_type_spec t : is_enum_type cx t = true <->
    exists x y l, t = TsIdent x /\ first x (type_defs ds) (TdEnum y l).
  Proof.
    split.
    - intros H. destruct t as [| | | | | | | | |x| | |]; try discriminate. cbn in H. apply existsb_exists in H as ([z t] & H & E).
      cbn in E. destruct t as [|y l| |]; try discriminate. apply String.eqb_eq in E. subst y.
      destruct (good_types G H) as [_ e]. injection e as ->. exists z, z, l. split; [easy|]. now apply nodup_first.
    - intros (x & y & l & -> & F). apply first_in in F. cbn. apply existsb_exists. exists (x, TdEnum y l).
      split; [easy|]. cbn. destruct (good_types G F) as [_ e]. injection e as ->. apply String.eqb_refl.
  Qed.

  (** std-trait enums as types *)
  Lemma kind_enum t k : tkind cfg ds t k -> enum_impl_std_trait cfg = true ->
    (is_enum_type cx t = true <-> k = KStd \/ k = KDense).
  Proof.
    intros H std. rewrite enum_type_spec.
    assert (D : forall x d, first x (type_defs ds) (TdDecl d) -> ~ exists x' y l, TsIdent x = TsIdent x' /\ first x' (type_defs ds) (TdEnum y l)).
    { intros x d F (x' & y & l & [= <-] & F'). discriminate (first_fun F F'). }
    destruct H; try (split; [intros (? & ? & ? & e & _); discriminate|intros [|]; discriminate]).
    - congruence.
    - split; [now left|]. eauto.
    - split; [now right|]. eauto.
    - split; [|intros [|]; discriminate]. intros (x' & y' & l' & [= <-] & F). discriminate (first_fun H F).
    - split; [|intros [|]; discriminate]. intros (x' & y' & l' & [= <-] & F). discriminate (first_fun H F).
    - split; [intros K; now apply (D _ _ H) in K|]. intros [->| ->]; destruct H1 as [|[|]]; discriminate.
    - split; [intros K; now apply (D _ _ H) in K|]. intros [|]; discriminate.
  Qed.

  Definition field_attr (d : decl) (op : opaque_type) : attr :=
    match op with
    | OpFixed => AFixed
    | OpVariable => AVariable
    | OpNone => if enum_impl_std_trait cfg &&
                   match decl_type d with Some t => is_enum_type cx t | None => false end
                then ASigned32 else ANone
    end.

  Lemma not_enum_name y : In y ["u8"; "String"]%string -> is_enum_type cx (TsIdent y) = false.
  Proof.
    intros I. destruct (is_enum_type cx (TsIdent y)) eqn:e; [|easy].
    apply enum_type_spec in e as (x & z & l & [= <-] & F). apply first_in in F. exfalso.
    destruct I as [<-|[<-|[]]].
    - destruct (IN F eq_refl) as (_ & N & _). now apply N.
    - apply not_taken with (y := "String"%string) in F; [easy|easy| |reflexivity]. cbn. tauto.
  Qed.

  Lemma attr_kind d k : dkind cfg ds d k -> k <> KDense -> field_attr d (op_of k) = attr_of k.
  Proof.
    intros H N. unfold field_attr. destruct (enum_impl_std_trait cfg) eqn:std.
    2: { destruct H as [t x k H| | | | | |]; try easy. destruct k; try easy. exfalso.
       inversion H; subst; try congruence. intuition discriminate. }
    cbn [andb]. destruct H as [t x k H|t x c z H|t x m k H K| | | |]; try easy.
    - cbn [decl_type]. pose proof (kind_enum H std) as E.
      destruct (is_enum_type cx t); destruct k; try easy; exfalso.
      + destruct (proj1 E eq_refl); discriminate.
      + assert (false = true) by (apply E; now left). discriminate.
    - cbn [decl_type]. pose proof (kind_enum H std) as E. cbn.
      destruct (is_enum_type cx t); [|easy]. destruct (proj1 E eq_refl); discriminate.
    - cbn [decl_type]. pose proof (kind_enum H std) as E. cbn.
      destruct (is_enum_type cx t); [|easy]. destruct (proj1 E eq_refl); destruct K; congruence.
    - cbn [decl_type op_of]. rewrite not_enum_name by (cbn; tauto). easy.
    - cbn [decl_type]. pose proof (kind_enum H std) as E. cbn.
      destruct (is_enum_type cx t); [|easy]. destruct (proj1 E eq_refl); discriminate.
  Qed.

  Definition field_facts (x : string) (d : decl) (fd : field) : Prop :=
    exists k nm ty, dkind cfg ds d k /\ k <> KDense /\ declared d = Some nm /\
      dtok ds d ty (op_of k) /\ fd_name fd = field_ident nm /\ fd_attr fd = attr_of k /\
      (tyspec_is x (decl_type d) = false /\ fd_ty fd = ty \/ fd_ty fd = YBox ty /\ mentions d = Some (TsIdent x) /\ k = KPlain).
  Definition struct_facts (x : string) (l : list decl) (s : struct_item) : Prop :=
    Forall2 (field_facts x) l (st_fields s).

  Lemma kind_self t x y l k : t = TsIdent x -> In (x, TdStruct y l) (type_defs ds) -> tkind cfg ds t k -> k = KPlain.
  Proof.
    intros -> F H. apply nodup_first in F. inversion H; subst; try easy;
      match goal with K : first x _ _ |- _ => discriminate (first_fun F K) end.
  Qed.

  Variables (x y : string) (l : list decl).
  Hypothesis SD : In (x, TdStruct y l) (type_defs ds).
  Hypothesis SO : struct_ok cfg ds l.

  Lemma self_field d k : tyspec_is x (decl_type d) = true -> dkind cfg ds d k ->
    mentions d = Some (TsIdent x) /\ k = KPlain.
  Proof.
    intros T D. unfold tyspec_is in T. destruct (decl_type d) as [t|] eqn:e; [|discriminate].
    destruct t as [| | | | | | | | |z| | |]; try discriminate. apply String.eqb_eq in T. subst z.
    destruct D as [t z k H|t z c w H|t z m k H K| | | |t z H]; cbn in e; try discriminate; injection e as e.
    - subst t. split; [easy|]. now apply (@kind_self (TsIdent x) x y l).
    - now subst t.
    - now subst t.
    - exfalso. subst. destruct (IN SD eq_refl) as (_ & N & _). now apply N.
    - exfalso. subst. destruct (IN SD eq_refl) as (_ & N & _). now apply N.
    - exfalso. subst. refine (@not_taken _ _ "String" SD eq_refl _ _ _); try reflexivity. cbn; tauto.
    - now subst t.
  Qed.

  Lemma struct_wp n : wp (convert_struct_token cx n x l)
    (fun s => st_name s = camel x /\ struct_facts x l s /\ item_compiles (IStruct s)).
  Proof.
    destruct SO as [(xs & NX & SX & FX) K]. rewrite Forall_forall in K.
    destruct (good_types G SD) as [(gx & _ & gl) _]. rewrite Forall_forall in gl.
    assert (ex : y = x) by (destruct (good_types G SD) as [_ e]; now injection e). rewrite ex in gx.
    unfold convert_struct_token.
    apply wp_bind with (Forall2 (field_facts x) l).
    - apply wp_gmap. intros d Hd. destruct (K d Hd) as (k & D & ND). unfold struct_field.
      assert (exists nm, declared d = Some nm /\ SpecXdl.field_name_ok nm) as (nm & Dn & Fn).
      { destruct (Forall2_in_l NX Hd) as (nm & Hn & e). exists nm. split; [easy|].
        rewrite Forall_forall in FX. auto. }
      replace (decl_name d) with (Some nm) by (rewrite <- Dn; now destruct d).
      eapply wp_bind; [apply (proj2 (tok_wp G RM IN) d k D n); auto|]. intros ? (ty & op & -> & T). cbn [required gbind].
      assert (O : op = op_of k) by exact (proj2 (op_kind ds cfg) d k D ty op T).
      subst op. change (cx_config cx) with cfg.
      match goal with |- context [Field ?a _ _] => change a with (field_attr d (op_of k)) end. rewrite (attr_kind D ND).
      destruct Fn as [Fu Fw].
      rewrite GenPanic.field_name_ok; [|now apply good_declared with d; [apply gl|]|].
      2: { intros H. apply Fu. unfold unusable in H. cbn [In] in *. tauto. }
      cbn. exists k, nm, ty. repeat (split; [easy|]).
      destruct (tyspec_is x (decl_type d)) eqn:e; [|now left]. right. split; [easy|]. now apply self_field.
    - intros fs Hfs. eapply wp_bind; [apply camel_wp; [easy|now apply (IN SD)]|]. intros ? <-. cbn.
      split; [easy|]. split; [easy|].
      assert (EN : map (fun fd => rident_name (fd_name fd)) fs = map snake xs).
      { clear - Hfs NX FX. revert xs NX FX. induction Hfs as [|d fd l fs (k & nm & ty & _ & _ & Dn & _ & En & _) F IH]; intros xs NX FX.
        - now inversion NX.
        - inversion NX as [|? nm' ? xs' e NX']; subst. inversion FX; subst. cbn. f_equal; [|now apply IH].
          assert (nm = nm') by congruence. subst nm'. rewrite En. apply field_ident_name.
          destruct H1 as [N _]. intros H. apply N. unfold unusable in H. cbn [In] in *. tauto. }
      split.
      + rewrite EN. destruct SX as [ND SX]. apply NoDup_map_in; [easy|]. intros a b Ha Hb e.
        apply SX with (chars (snake a)); try easy; [apply snaked_snake|rewrite e; apply snaked_snake].
      + apply Forall_forall. intros fd Hfd. destruct (Forall2_in_r Hfs Hfd) as (d & Hd & k & nm & ty & _ & _ & Dn & _ & En & _).
        rewrite En. apply field_ident_ok. destruct (Forall2_in_l NX Hd) as (nm' & Hn & e). assert (nm' = nm) by congruence. subst nm'.
        rewrite Forall_forall in FX. auto.
  Qed.
End Struct.
