(** Absence of panics of the generator model. *)
From Verif Require Import Base RustTypes Nom NomFacts Keyword Ast ParserModel SpecGrammar SpecParse
  ConstProofs CaseModel SpecCase CaseProofs RustAst GenModel SpecGen GenFacts GenTotal.
Set Implicit Arguments.
Unset Strict Implicit.
Local Open Scope list_scope.

Lemma np_bind {A B} (r : gres A) (f : A -> gres B) :
  r <> GPanic -> (forall a, r = GOk a -> f a <> GPanic) -> gbind r f <> GPanic.
Proof. destruct r; cbn; auto; easy. Qed.
Lemma np_gmap {A B} (f : A -> gres B) l : (forall a, In a l -> f a <> GPanic) -> gmap f l <> GPanic.
Proof.
  induction l as [|a l IH]; intros H; [easy|]. cbn. apply np_bind; [apply H; now left|]. intros b _.
  apply np_bind; [apply IH; intros; apply H; now right|easy].
Qed.

(** ** Names *)
Definition camel (x : string) : string := str (upper_camel_case (chars x)).

Lemma name_char_lower c : name_char (lower c) = name_char c.
Proof. all_chars c; reflexivity. Qed.
Lemma alpha_lower c : is_alpha (lower c) = is_alpha c.
Proof. all_chars c; reflexivity. Qed.
Lemma start_lower c : name_start (lower c) = name_start c.
Proof. all_chars c; reflexivity. Qed.
Lemma start_char c : name_start c = true -> name_char c = true.
Proof. unfold name_start, name_char, is_alphanum. rewrite !orb_true_iff. tauto. Qed.

Lemma letters_names u : Forall (fun c => name_char c = true) u ->
  Forall (fun c => name_char c = true) (letters u).
Proof.
  induction 1 as [|c u h F IH]; [constructor|]. rewrite letters_cons.
  destruct (Ascii.eqb c "_"); [easy|]. constructor; [now rewrite name_char_lower|easy].
Qed.
Lemma names_letters u : Forall (fun c => name_char c = true) (letters u) ->
  Forall (fun c => name_char c = true) u.
Proof.
  induction u as [|c u IH]; [constructor|]. rewrite letters_cons.
  destruct (Ascii.eqb c "_") eqn:e.
  - intros H. constructor; [|auto]. apply Ascii.eqb_eq in e. now subst.
  - intros H. inversion H. constructor; [now rewrite <- name_char_lower|auto].
Qed.
Lemma good_name_chars x : good_name x -> Forall (fun c => name_char c = true) (chars x).
Proof.
  intros [H _]. destruct (chars x); [easy|]. destruct H. constructor; [now apply start_char|easy].
Qed.

Lemma no_us_letters t : existsb (Ascii.eqb "_") t = false -> letters t = map lower t.
Proof.
  induction t as [|c t IH]; [easy|]. cbn [existsb]. rewrite orb_false_iff. intros [h1 h2].
  rewrite letters_cons, eqb_sym, h1. cbn. now rewrite IH.
Qed.

Lemma ident_text_spec t : ident_text t = true <->
  starts name_start t /\ Forall (fun c => name_char c = true) t.
Proof.
  destruct t as [|c t]; cbn [ident_text starts]; [easy|].
  rewrite andb_true_iff, forallb_forall. split.
  - intros [h F]. split; [easy|]. constructor; [now apply start_char|]. now apply Forall_forall.
  - intros [h F]. split; [easy|]. inversion F. now apply Forall_forall.
Qed.

Lemma camel_ident x : good_name x -> camelable x ->
  upper_camel_case_ident x = GOk (camel x).
Proof.
  intros g c. unfold upper_camel_case_ident, ident_new, camel.
  replace (ident_text _) with true; [easy|]. symmetry. apply ident_text_spec. split.
  - unfold camelable in c. rewrite <- (camel_letters (chars x)) in c.
    rewrite no_us_letters in c by apply camel_no_us.
    destruct (upper_camel_case (chars x)) as [|d u]; [easy|]. cbn in *.
    rewrite alpha_lower in c. unfold name_start. now rewrite c.
  - apply names_letters. rewrite camel_letters. apply letters_names. now apply good_name_chars.
Qed.
Lemma camel_np x : good_name x -> camelable x -> upper_camel_case_ident x <> GPanic.
Proof. intros g c. now rewrite camel_ident. Qed.
Lemma plain_ident x : good_name x -> ident_new (chars x) = GOk x.
Proof.
  intros g. unfold ident_new. replace (ident_text (chars x)) with true; [now rewrite string_of_list_ascii_of_string|].
  symmetry. apply ident_text_spec. split; [|now apply good_name_chars].
  destruct g as [g _]. destruct (chars x); [easy|]. apply g.
Qed.

Definition snake (x : string) : string := str (snake_case (chars x)).

Lemma snake_plain x : good_name x -> snake_case_ident x = GOk (Id (snake x)).
Proof.
  intros g. unfold snake_case_ident, format_ident.
  assert (F : Forall (fun c => name_char c = true) (snake_case (chars x))).
  { apply names_letters. rewrite snake_letters. apply letters_names. now apply good_name_chars. }
  replace (strip (chars "r#") (snake_case (chars x))) with (@None text).
  - unfold ident_new. replace (ident_text _) with true; [easy|]. symmetry. apply ident_text_spec.
    split; [|easy]. destruct g as [g _]. rewrite snake_eq. destruct (chars x); [easy|]. cbn.
    rewrite start_lower. apply g.
  - destruct (snake_case (chars x)) as [|c [|d u]]; [easy| |].
    + cbn [strip list_ascii_of_string]. now destruct (Ascii.eqb "r" c).
    + cbn [strip list_ascii_of_string]. destruct (Ascii.eqb "r" c); [|easy].
      destruct (Ascii.eqb "#" d) eqn:e; [|easy]. apply Ascii.eqb_eq in e. subst d.
      inversion F as [|? ? ? F']. inversion F'. discriminate.
Qed.

Lemma reserved_in x : rust_reserved x = true <-> In x KEYWORDS_RUST.
Proof.
  unfold rust_reserved. rewrite existsb_exists. split.
  - intros (y & H & e). apply String.eqb_eq in e. now subst.
  - intros H. exists x. split; [easy|apply String.eqb_refl].
Qed.
Definition unusable : list string := ["self"; "Self"; "super"; "crate"]%string.
Lemma snake_raw x : rust_reserved x = true -> ~ In x unusable ->
  snake_case_ident ("r#" ++ x) = GOk (RawId x) /\ snake x = x.
Proof.
  intros H N. apply reserved_in in H. unfold KEYWORDS_RUST in H. cbn [In] in H.
  repeat (destruct H as [<-|H]; [split; vm_compute; try reflexivity; exfalso; apply N; cbn; tauto|]).
  destruct H.
Qed.

(** the name of a struct field *)
Definition field_ident (x : string) : rident := if rust_reserved x then RawId x else Id (snake x).
Lemma field_name_ok x : good_name x -> ~ In x unusable ->
  snake_case_ident (if rust_reserved x then "r#" ++ x else x)%string = GOk (field_ident x).
Proof.
  intros g N. unfold field_ident. destruct (rust_reserved x) eqn:e.
  - now apply snake_raw.
  - now apply snake_plain.
Qed.

(** ** Well-formedness of what the context contains *)
Lemma good_types ds x t : good_spec ds -> In (x, t) (type_defs ds) ->
  good_typedef t /\ typedef_name t = Some x.
Proof.
  unfold good_spec, type_defs. intros F H. apply in_flat_map in H as (d & Hd & H).
  rewrite Forall_forall in F. specialize (F d Hd). destruct d as [u|a| |p]; try easy.
  cbn in H. destruct (typedef_name u) eqn:e; [|easy].
  destruct H as [H|[]]. injection H as <- <-. easy.
Qed.
Lemma good_declared d x : good_decl d -> declared d = Some x -> good_name x.
Proof. destruct d; cbn; try discriminate; intros H [= <-]; tauto. Qed.
Lemma good_type_name t x : good_typedef t -> typedef_name t = Some x -> good_name x.
Proof. destruct t; cbn; try (now apply good_declared); intros H [= <-]; apply H. Qed.
Lemma good_mentions d t : good_decl d -> mentions d = Some t -> good_type t /\ t <> TsVoid.
Proof.
  destruct d; cbn [mentions good_decl]; try discriminate; intros H [= <-]; (split; [tauto|]);
    intros ->; cbn in H; tauto.
Qed.
Lemma good_fold {A} (P : A -> Prop) l : fold_right (fun d Q => P d /\ Q) True l <-> Forall P l.
Proof.
  induction l as [|a l IH]; cbn; [now split|]. rewrite IH. split.
  - intros []. now constructor.
  - inversion 1; auto.
Qed.

Lemma succ_np (c s : bool) z : (c = true -> z <> if s then 2 ^ 31 - 1 else 2 ^ 32 - 1) ->
  z <= (if s then 2 ^ 31 - 1 else 2 ^ 32 - 1) -> succ_checked c s z <> GPanic.
Proof.
  intros H L. unfold succ_checked. destruct (Z.ltb_spec z (if s then 2 ^ 31 - 1 else 2 ^ 32 - 1)); [easy|].
  destruct c; [|easy]. exfalso. specialize (H eq_refl). lia.
Qed.
Lemma succ_val (c s : bool) z z' : succ_checked c s z = GOk z' ->
  z <= (if s then 2 ^ 31 - 1 else 2 ^ 32 - 1) ->
  z <> (if s then 2 ^ 31 - 1 else 2 ^ 32 - 1) -> z' = z + 1.
Proof.
  unfold succ_checked. destruct (Z.ltb_spec z (if s then 2 ^ 31 - 1 else 2 ^ 32 - 1)); [congruence|lia].
Qed.

(** decimal digits *)
Lemma digits_pos_names fuel : forall z acc, Forall (fun c => name_char c = true) acc ->
  Forall (fun c => name_char c = true) (digits_pos fuel z acc).
Proof.
  induction fuel as [|n IH]; intros z acc F; [easy|]. cbn [digits_pos].
  assert (H : Forall (fun c => name_char c = true) (ascii_of_N (Z.to_N (48 + z mod 10)) :: acc)).
  { constructor; [|easy]. assert (L : 0 <= z mod 10 < 10) by (apply Z.mod_pos_bound; lia).
    assert (C : z mod 10 = 0 \/ z mod 10 = 1 \/ z mod 10 = 2 \/ z mod 10 = 3 \/ z mod 10 = 4 \/
      z mod 10 = 5 \/ z mod 10 = 6 \/ z mod 10 = 7 \/ z mod 10 = 8 \/ z mod 10 = 9) by lia.
    repeat (destruct C as [C|C]; [rewrite C; reflexivity|]). rewrite C. reflexivity. }
  destruct (z <? 10); [easy|now apply IH].
Qed.
Definition reserved_name (z : Z) : string := str (chars "_Reserved" ++ to_decimal z).
Lemma reserved_ok z : 0 <= z -> reserved z = GOk (reserved_name z).
Proof.
  intros H. unfold reserved, ident_new.
  replace (ident_text (chars "_Reserved" ++ to_decimal z)) with true; [easy|].
  symmetry. apply ident_text_spec. split; [reflexivity|]. apply Forall_app. split; [repeat constructor|].
  unfold to_decimal. destruct (Z.ltb_spec z 0); [lia|]. apply digits_pos_names. constructor.
Qed.
Lemma zrange_in a b z : In z (zrange a b) <-> a <= z < b.
Proof.
  unfold zrange. rewrite in_map_iff. split.
  - intros (k & <- & H). apply in_seq in H. lia.
  - intros H. exists (Z.to_nat (z - a)). split; [lia|]. apply in_seq. lia.
Qed.
Lemma fill_ok {A} (f : Z -> gres A) g a b : 0 <= a -> (forall z, 0 <= z -> f z = GOk (g z)) ->
  gmap f (zrange a b) = GOk (map g (zrange a b)).
Proof. intros H K. apply gmap_map. intros z Hz. apply K. apply zrange_in in Hz. lia. Qed.

(** sorting *)
Lemma insert_by_in {A} key (a : A) l x : In x (insert_by key a l) <-> x = a \/ In x l.
Proof.
  induction l as [|b l IH]; cbn; [intuition|]. destruct (_ <=? _); cbn; [intuition|].
  rewrite IH. intuition.
Qed.
Lemma sort_by_in {A} key (l : list A) x : In x (sort_by key l) <-> In x l.
Proof. induction l as [|a l IH]; cbn; [easy|]. rewrite insert_by_in, IH. intuition. Qed.

Section Panic.
  Variables (cfg : config) (ds : list definition).
  Let cx := ctx cfg ds.
  Hypothesis G : good_spec ds.
  Hypothesis N : names_ok ds.
  Hypothesis sc : one_scope ds.
  Hypothesis num : numbers_ok
    (fun z => (overflow_checks cfg = true \/ enum_complement_index cfg = true -> z <> 2 ^ 31 - 1) /\
              (enum_complement_index cfg = true -> -1 <= z))
    (fun z => overflow_checks cfg = true -> z <> 2 ^ 32 - 1) ds.

  Lemma names_in x t : In (x, t) (type_defs ds) -> camelable x /\
    match t with
    | TdDecl d => decl_names_ok d
    | TdEnum _ l => Forall (fun a => camelable (as_name a)) l
    | TdStruct _ l => Forall field_ok l
    | TdUnion _ u => union_ok u
    end.
  Proof. intros H. unfold names_ok in N. rewrite Forall_forall in N. apply (N _ H). Qed.

  Lemma vtoken_np k b v : good_value v -> (b = true -> label_ok v) -> convert_value_token k b v <> GPanic.
  Proof.
    intros g l. destruct v as [c|x]; cbn; apply np_bind; try easy.
    - destruct (constant_result k c) as [[z E]|E]; rewrite E; easy.
    - destruct b; [now apply camel_np; [|apply l]|]. now rewrite plain_ident.
  Qed.

  Lemma primitive_np rt t : good_type t -> t <> TsVoid ->
    (forall x, t = TsIdent x -> rt x <> GPanic) -> convert_primitive_token rt t <> GPanic.
  Proof. intros g v H. destruct t; try easy. now apply H. Qed.
  Lemma type_np rt d : good_decl d -> (forall x, mentions d = Some (TsIdent x) -> rt x <> GPanic) ->
    convert_type_token rt d <> GPanic.
  Proof.
    intros g H.
    assert (P : forall t, mentions d = Some t -> convert_primitive_token rt t <> GPanic).
    { intros t M. destruct (good_mentions g M). apply primitive_np; try easy. intros x ->. now apply H. }
    destruct d; cbn [convert_type_token mentions good_decl] in *; try easy;
      try (apply np_bind; [now apply P|]; intros [] _); try easy.
    - apply np_bind; [|easy]. now apply vtoken_np.
    - apply np_bind; [|easy]. now apply vtoken_np.
  Qed.
  Lemma resolve_type_np n : forall x, good_name x -> camelable x -> resolve_type_token cx n x <> GPanic.
  Proof.
    induction n as [|n IH]; intros x g c; [easy|]. cbn [resolve_type_token].
    assert (D : gbind (upper_camel_case_ident x) (fun name => GOk (YName name, OpNone)) <> GPanic)
      by (apply np_bind; [now apply camel_np|easy]).
    destruct (remove_typedef (cx_config cx)); [|exact D].
    destruct (assoc String.eqb x (typedefs cx)) as [[d| | |]|] eqn:e; try exact D.
    apply assoc_first, first_in in e. destruct (names_in e) as [_ o]. destruct (good_types G e) as [gd _].
    apply np_bind; [|intros []; easy].
    apply type_np; [exact gd|]. intros y M. unfold decl_names_ok in o. rewrite M in o.
    apply IH; [|easy]. now destruct (good_mentions gd M).
  Qed.
  Lemma type_token_np n d : good_decl d -> decl_names_ok d ->
    convert_type_token (resolve_type_token cx n) d <> GPanic.
  Proof.
    intros g o. apply type_np; [easy|]. intros x M. unfold decl_names_ok in o. rewrite M in o.
    apply resolve_type_np; [|easy]. now destruct (good_mentions g M).
  Qed.

  Lemma resolved n k v z : good_value v -> resolve_value cx n k v = GOk z -> value_is ds v z /\ fits k z.
  Proof. intros g. apply resolves_value; try easy. now apply good_spec_values. Qed.

  Lemma enum_values_np l : forall s, 0 <= s -> 
    Forall (fun p => (good_name (snd p) /\ camelable (snd p)) /\ fits KI32 (fst p) /\
      (overflow_checks cfg = true \/ enum_complement_index cfg = true -> fst p <> 2 ^ 31 - 1) /\
      (enum_complement_index cfg = true -> -1 <= fst p)) l ->
    enum_values cx s l <> GPanic.
  Proof.
    induction l as [|[e x] l IH]; intros s Hs F; [easy|]. inversion F as [|? ? [[g c] (fi & h1 & h2)] F']; subst.
    cbn [enum_values fst snd] in *. cbn [fits] in fi.
    change (cx_config cx) with cfg.
    destruct (enum_complement_index cfg) eqn:ci.
    - apply np_bind.
      + rewrite (@fill_ok _ _ (fun z => (reserved_name z, z))); [easy|easy|].
        intros z Hz. now rewrite reserved_ok.
      + intros fill _. apply np_bind; [now apply camel_np|]. intros it _.
        apply np_bind; [apply succ_np; [|lia]; intros; apply h1; now right|].
        intros s' E. apply succ_val in E; [|lia|apply h1; now right].
        apply np_bind; [|easy]. apply IH; [|easy]. specialize (h2 eq_refl). lia.
    - apply np_bind; [easy|]. intros fill _. apply np_bind; [now apply camel_np|]. intros it _.
      apply np_bind; [apply succ_np; [|lia]; intros; apply h1; now left|].
      intros s' E. apply np_bind; [|easy].
      clear IH E h1 h2 F fi. (* the start does not matter here *)
      revert s'. induction F' as [|[e' x'] l' [[g' c'] (fi & h1 & h2)] F' IH]; intros s'; [easy|].
      cbn [enum_values fst snd] in *. change (cx_config cx) with cfg. rewrite ci.
      apply np_bind; [easy|]. intros fill' _. apply np_bind; [now apply camel_np|]. intros it' _.
      cbn [fits] in fi. apply np_bind; [apply succ_np; [|lia]; intros; apply h1; now left|].
      intros s'' _. apply np_bind; [|easy]. apply IH.
  Qed.
  Lemma enum_np n x y l : In (x, TdEnum y l) (type_defs ds) -> convert_enum_token cx n x l <> GPanic.
  Proof.
    intros H. destruct (names_in H) as [cx' cl]. destruct (good_types G H) as [gt nx].
    assert (gx : good_name x) by exact (good_type_name gt nx).
    cbn in gt. destruct gt as (_ & ne & gl).
    pose proof num as nu0. unfold numbers_ok in nu0. rewrite Forall_forall in nu0.
    specialize (nu0 _ H). cbn [snd] in nu0.
    unfold convert_enum_token.
    apply np_bind.
    { apply np_gmap. intros a Ha. apply np_bind; [|easy].
      apply resolve_value_result. }
    intros ix E. apply gmap_ok in E.
    assert (F : Forall (fun p => (good_name (snd p) /\ camelable (snd p)) /\ fits KI32 (fst p) /\
      (overflow_checks cfg = true \/ enum_complement_index cfg = true -> fst p <> 2 ^ 31 - 1) /\
      (enum_complement_index cfg = true -> -1 <= fst p)) ix).
    { clear ne nx H. revert gl cl nu0. induction E as [|a p l' ix h E IH]; intros gl cl num'; [constructor|].
      inversion gl as [|? ? ga gl']; inversion cl as [|? ? ca cl']; inversion num' as [|? ? na num'']; subst.
      constructor; [|now apply IH].
      apply gbind_ok in h as (z & r & h). injection h as <-. cbn [fst snd].
      destruct ga as [ga gv]. destruct (resolved gv r) as [v f]. specialize (na z v). tauto. }
    assert (ne' : sort_by fst ix <> []).
    { destruct ix as [|p ix]; [inversion E; subst; easy|].
      intros e. assert (I : In p (sort_by fst (p :: ix))) by (apply sort_by_in; now left).
      rewrite e in I. destruct I. }
    assert (F' : Forall (fun p => (good_name (snd p) /\ camelable (snd p)) /\ fits KI32 (fst p) /\
      (overflow_checks cfg = true \/ enum_complement_index cfg = true -> fst p <> 2 ^ 31 - 1) /\
      (enum_complement_index cfg = true -> -1 <= fst p)) (sort_by fst ix)).
    { apply Forall_forall. intros p Hp. apply sort_by_in in Hp. rewrite Forall_forall in F. now apply F. }
    apply np_bind; [now apply camel_np|]. intros ni _.
    apply np_bind; [apply enum_values_np; [lia|easy]|]. intros vs _.
    apply np_bind.
    { apply np_gmap. intros p Hp. apply np_bind; [|easy]. rewrite Forall_forall in F'.
      destruct (F' p Hp) as [[] _]. now apply camel_np. }
    intros items EI. apply gmap_ok in EI. destruct (sort_by fst ix) as [|p q]; [easy|].
    inversion EI as [|? [] ? ? ? ?]; subst. easy.
  Qed.

  Lemma field_np n name d : good_decl d -> field_ok d -> struct_field cx n name d <> GPanic.
  Proof.
    intros g (o & x & Dx & Nx). unfold struct_field.
    replace (decl_name d) with (Some x) by (rewrite <- Dx; now destruct d).
    apply np_bind; [now apply type_token_np|]. intros t _.
    apply np_bind; [now destruct t|]. intros [ty op] _.
    assert (gx : good_name x) by exact (good_declared g Dx).
    cbv zeta. rewrite (field_name_ok gx Nx). easy.
  Qed.
  Lemma struct_np n x y l : In (x, TdStruct y l) (type_defs ds) -> convert_struct_token cx n x l <> GPanic.
  Proof.
    intros H. destruct (names_in H) as [cx' cl]. destruct (good_types G H) as [gt nx].
    assert (gx : good_name x) by exact (good_type_name gt nx). destruct gt as (_ & _ & gl).
    rewrite Forall_forall in cl, gl.
    unfold convert_struct_token. apply np_bind.
    - apply np_gmap. intros d Hd. apply field_np; auto.
    - intros. apply np_bind; [now apply camel_np|easy].
  Qed.

  Lemma case_np n v d cond : good_value v -> label_ok v -> good_decl d -> decl_names_ok d ->
    (cond = TsBool \/ (exists s, cond = TsInt s) \/ exists y, cond = TsIdent y /\ good_name y /\ camelable y) ->
    convert_case_token cx n v d cond <> GPanic.
  Proof.
    intros gv lv gd od C. unfold convert_case_token.
    apply np_bind; [now apply vtoken_np|]. intros name _.
    apply np_bind.
    - destruct C as [->|[[s ->]|(y & -> & gy & cy)]]; try easy. cbn [convert_primitive_token].
      pose proof (@resolve_type_np n y gy cy) as R.
      destruct (resolve_type_token cx n y) as [[]| | |]; try easy.
      apply np_bind; [now apply camel_np|easy].
    - intros c _. apply np_bind; [now apply type_token_np|easy].
  Qed.

  Lemma values_np n cond l : 
    ((exists s, cond = TsInt s) \/ exists y, cond = TsIdent y /\ good_name y /\ camelable y) ->
    Forall (fun p : Z * decl * value => let '(z, d, v) := p in
      good_value v /\ label_ok v /\ good_decl d /\ decl_names_ok d /\ fits KU32 z /\
      (overflow_checks cfg = true -> z <> 2 ^ 32 - 1)) l ->
    forall s acc, 0 <= s ->
      union_values cx n cond s l acc <> GPanic /\
      forall p, union_values cx n cond s l acc = GOk p ->
        (up_default acc <> None \/ l <> []) -> up_default p <> None.
  Proof.
    intros C F. induction F as [|[[z d] v] l (gv & lv & gd & od & fi & hz) F IH]; intros s acc Hs.
    { cbn. split; [easy|]. intros p [= <-] [H|H]; easy. }
    cbn [union_values fits] in *. change (cx_config cx) with cfg.
    assert (Fi : (if union_complement_index cfg then gmap reserved_variant (zrange s z) else GOk []) <> GPanic).
    { destruct (union_complement_index cfg); [|easy].
      rewrite (@fill_ok _ _ (fun z => Variant ANone (TokId (reserved_name z)) [])); [easy|easy|].
      intros w Hw. unfold reserved_variant. now rewrite reserved_ok. }
    assert (Ca : convert_case_token cx n v d cond <> GPanic) by (apply case_np; try easy; now right).
    assert (BV : forall ct, (if is_enum_type cx cond then
               match cond with
               | TsIdent c =>
                   gbind (upper_camel_case_ident c) (fun c_ident =>
                   match v with
                   | VIdent x => gbind (upper_camel_case_ident x) (fun x_ident =>
                                 GOk [(PtPath c_ident x_ident, ct_name ct)])
                   | VConst _ => GOk []
                   end)
               | _ => GOk []
               end
             else GOk [(PtNum z, ct_name ct)]) <> GPanic).
    { intros ct. destruct (is_enum_type cx cond); [|easy].
      destruct C as [[s0 ->]|(y & -> & gy & cy)]; [easy|].
      apply np_bind; [now apply camel_np|]. intros. destruct v; [easy|]. apply np_bind; [now apply camel_np|easy]. }
    assert (Su : succ_checked (overflow_checks cfg) false z <> GPanic) by (apply succ_np; [easy|lia]).
    assert (S0 : forall s', succ_checked (overflow_checks cfg) false z = GOk s' -> 0 <= s').
    { intros s'. unfold succ_checked. destruct (z <? 2 ^ 32 - 1); [intros [= <-]; lia|].
      destruct (overflow_checks cfg); [discriminate|]. intros [= <-]; lia. }
    split.
    - apply np_bind; [easy|]. intros fill _. apply np_bind; [easy|]. intros ct _.
      apply np_bind; [apply BV|]. intros bv _. apply np_bind; [easy|]. intros s' Es.
      apply IH. now apply S0.
    - intros p E _. apply gbind_ok in E as (fill & _ & E). apply gbind_ok in E as (ct & _ & E).
      apply gbind_ok in E as (bv & _ & E). apply gbind_ok in E as (s' & Es & E).
      match type of E with union_values _ _ _ _ _ ?a = _ => destruct (IH s' a (S0 _ Es)) as [_ K] end.
      apply (K _ E). left. cbn.
      now destruct (up_default acc).
  Qed.

  Lemma bool_case_np n b specs acc : Forall good_case specs -> Forall case_ok specs ->
    bool_case cx n TsBool b specs acc <> GPanic /\
    forall p, bool_case cx n TsBool b specs acc = GOk p ->
      (up_default acc <> None \/ In (VIdent (if b then "TRUE" else "FALSE")%string) (labels specs)) ->
      up_default p <> None.
  Proof.
    intros gs os. unfold bool_case.
    set (test := if b then is_true else is_false).
    assert (T : forall v, test v = true <-> v = VIdent (if b then "TRUE" else "FALSE")%string).
    { intros [c|x]; subst test; destruct b; cbn; try (split; discriminate);
        rewrite String.eqb_eq; split; congruence. }
    destruct (find _ specs) as [[vs d]|] eqn:e.
    - apply find_some in e as [Hin ex]. rewrite Forall_forall in gs, os.
      destruct (gs _ Hin) as (_ & gvs & gd). destruct (os _ Hin) as [lvs od].
      rewrite Forall_forall in gvs, lvs.
      destruct (find test vs) as [v|] eqn:f.
      + apply find_some in f as [Hv _]. split.
        * apply np_bind; [|easy]. apply case_np; auto.
        * intros p E _. apply gbind_ok in E as (ct & _ & [= <-]). cbn. now destruct (up_default acc).
      + exfalso. apply existsb_exists in ex as (v & Hv & tv). pose proof (find_none _ _ f v Hv). congruence.
    - split.
      + destruct (union_complement_index _); [|easy]. apply np_bind; [|easy].
        unfold reserved_variant. apply np_bind; [|easy]. rewrite reserved_ok by (destruct b; lia). easy.
      + intros p E [H|H].
        * destruct (union_complement_index _).
          -- apply gbind_ok in E as (r & _ & [= <-]). easy.
          -- now injection E as <-.
        * exfalso. unfold labels in H. apply in_flat_map in H as ([vs d] & Hs & Hv).
          pose proof (find_none _ _ e _ Hs) as K. cbn in K.
          assert (existsb test vs = true); [|congruence].
          apply existsb_exists. eexists. split; [exact Hv|]. now apply T.
  Qed.

  Lemma union_np n x y u : In (x, TdUnion y u) (type_defs ds) -> convert_union_token cx n x u <> GPanic.
  Proof.
    intros H. destruct (names_in H) as [cx' cu]. destruct (good_types G H) as [gt nx].
    assert (gx : good_name x) by exact (good_type_name gt nx). destruct gt as (_ & gu).
    pose proof num as nu0. unfold numbers_ok in nu0. rewrite Forall_forall in nu0.
    specialize (nu0 _ H). cbn [snd] in nu0.
    destruct u as [c specs dflt]. cbn [good_union_body union_ok] in *.
    destruct gu as (gc & ns & gs & gd). apply good_fold in gs.
    destruct cu as (oc & os & od & ob).
    cbn [convert_union_token].
    apply np_bind; [now apply camel_np|]. intros ni _.
    apply np_bind; [now destruct c|]. intros cond Ec.
    assert (Mc : mentions c = Some cond) by (destruct c; try discriminate; cbn; congruence).
    destruct (good_mentions gc Mc) as [gcond _].
    unfold decl_names_ok in oc. rewrite Mc in oc.
    assert (VP : ((exists s, cond = TsInt s) \/ exists y, cond = TsIdent y) ->
      forall values,
      gmap (fun s => match s with CaseSpec vs d =>
         gmap (fun v => gbind (resolve_value cx n KU32 v) (fun z => GOk (z, d, v))) vs end) specs = GOk values ->
      concat values <> [] /\
      Forall (fun p : Z * decl * value => let '(z, d, v) := p in
      good_value v /\ label_ok v /\ good_decl d /\ decl_names_ok d /\ fits KU32 z /\
      (overflow_checks cfg = true -> z <> 2 ^ 32 - 1)) (concat values)).
    { intros C values E. apply gmap_ok in E.
      assert (nb : mentions c <> Some TsBool) by (rewrite Mc; intros [= ->]; destruct C as [[]|[]]; discriminate).
      specialize (nu0 nb). split.
      - destruct E as [|[vs d] b l bs h E]; [easy|]. apply gmap_ok in h.
        pose proof (Forall_inv gs) as gcs. cbn in gcs. destruct gcs as (nvs & _). destruct h; [easy|]. easy.
      - clear ob nb ns H nx. revert gs os nu0. induction E as [|[vs d] b l bs h E IH]; intros gs os nu; [constructor|].
        pose proof (Forall_inv gs) as gcs. pose proof (Forall_inv_tail gs) as gs'.
        pose proof (Forall_inv os) as ocs. pose proof (Forall_inv_tail os) as os'.
        cbn in gcs, ocs. destruct gcs as (_ & gvs & gd'). destruct ocs as (lvs & od').
        cbn [labels flat_map] in nu. apply Forall_app in nu as [nu1 nu2].
        cbn [concat]. apply Forall_app. split; [|now apply IH].
        apply gmap_ok in h. clear - h gvs lvs gd' od' nu1 G sc.
        induction h as [|v q vs qs h h' IH]; [constructor|].
        inversion gvs; inversion lvs; inversion nu1; subst.
        constructor; [|now apply IH].
        apply gbind_ok in h as (z & r & h). injection h as <-.
        destruct (@resolved n KU32 v z ltac:(easy) r) as [vi fi]. 
        match goal with K : forall z, value_is ds v z -> _ |- _ => specialize (K z vi) end. tauto. }
    assert (VG : gmap (fun s => match s with CaseSpec vs d =>
         gmap (fun v => gbind (resolve_value cx n KU32 v) (fun z => GOk (z, d, v))) vs end) specs <> GPanic).
    { apply np_gmap. intros [vs d] _. apply np_gmap. intros v _. apply np_bind; [|easy].
      apply resolve_value_result. }
    match goal with |- gbind ?parts _ <> GPanic =>
      assert (PP : parts <> GPanic /\ forall p, parts = GOk p -> dflt = None -> up_default p <> None) end.
    { assert (V : (exists s, cond = TsInt s) \/ (exists y, cond = TsIdent y /\ good_name y /\ camelable y) ->
        let r := gbind (gmap (fun s => match s with CaseSpec vs d =>
         gmap (fun v => gbind (resolve_value cx n KU32 v) (fun z => GOk (z, d, v))) vs end) specs)
          (fun values => union_values cx n cond 0 (sort_by (fun p => fst (fst p)) (concat values)) no_parts) in
        r <> GPanic /\ forall p, r = GOk p -> dflt = None -> up_default p <> None).
      { intros C.
        assert (K : forall values,  gmap (fun s => match s with CaseSpec vs d =>
         gmap (fun v => gbind (resolve_value cx n KU32 v) (fun z => GOk (z, d, v))) vs end) specs = GOk values ->
          union_values cx n cond 0 (sort_by (fun p => fst (fst p)) (concat values)) no_parts <> GPanic /\
          forall p, union_values cx n cond 0 (sort_by (fun p => fst (fst p)) (concat values)) no_parts = GOk p ->
            up_default p <> None).
        { intros values E. destruct (VP ltac:(destruct C as [|[y0 []]]; eauto) values E) as [ne F].
          assert (F' : Forall (fun p : Z * decl * value => let '(z, d, v) := p in
            good_value v /\ label_ok v /\ good_decl d /\ decl_names_ok d /\ fits KU32 z /\
            (overflow_checks cfg = true -> z <> 2 ^ 32 - 1)) (sort_by (fun p => fst (fst p)) (concat values))).
          { apply Forall_forall. intros p Hp. apply sort_by_in in Hp. rewrite Forall_forall in F. now apply F. }
          destruct (@values_np n cond _ C F' 0 no_parts ltac:(lia)) as [K1 K2]. split; [easy|].
          intros p Ep. apply (K2 p Ep). right. intros e.
          destruct (concat values) as [|q qs] eqn:eq; [easy|].
          assert (I : In q (sort_by (fun p : Z * decl * value => fst (fst p)) (q :: qs))) by (apply sort_by_in; now left).
          rewrite e in I. destruct I. }
        cbv zeta. split.
        - apply np_bind; [easy|]. intros values E. now apply K.
        - intros p E _. apply gbind_ok in E as (values & E1 & E2). now apply (K values). }
      destruct cond; try (split; [easy|discriminate]).
      - apply V. eauto.
      - split.
        + apply np_bind; [now apply bool_case_np|]. intros p1 _.
          apply np_bind; [now apply bool_case_np|easy].
        + intros p E nd. apply gbind_ok in E as (p1 & E1 & E). apply gbind_ok in E as (p2 & E2 & [= <-]).
          cbn [up_default]. destruct (ob Mc nd) as (v & Hv & [->| ->]).
          * apply (proj2 (@bool_case_np n true specs p1 gs os) p2 E2). now right.
          * apply (proj2 (@bool_case_np n true specs p1 gs os) p2 E2). left.
            apply (proj2 (@bool_case_np n false specs no_parts gs os) p1 E1). now right.
      - apply V. right. exists x0. auto. }
    destruct PP as [PP1 PP2].
    apply np_bind; [exact PP1|]. intros p Ep. specialize (PP2 p Ep).
    apply np_bind.
    - unfold union_default. destruct dflt as [d|]; [|easy]. apply np_bind; [|easy]. now apply type_token_np.
    - intros p' Ep'. unfold union_default in Ep'. destruct dflt as [d|].
      + apply gbind_ok in Ep' as (t & _ & [= <-]). easy.
      + injection Ep' as <-. specialize (PP2 eq_refl). now destruct (up_default p).
  Qed.

  Lemma gen_np n : gen_code n cfg ds <> GPanic.
  Proof.
    rewrite gen_code_eq. apply np_bind.
    - apply np_gmap. intros [x v] Hx. cbn.
      assert (gx : good_name x /\ good_value v).
      { cbn in Hx. unfold const_defs in Hx. apply in_flat_map in Hx as (d & Hd & Hx).
        unfold good_spec in G. rewrite Forall_forall in G. specialize (G _ Hd).
        destruct d; try easy. destruct Hx as [[= <- <-]|[]]. exact G. }
      destruct gx as [gx gv]. rewrite plain_ident by easy. cbn [gbind].
      assert (T : forall k, convert_value_token k false v <> GPanic) by (intros; now apply vtoken_np).
      specialize (T KU32) as T1. destruct (convert_value_token KU32 false v); try easy.
      apply np_bind; [apply T|easy].
    - intros c _. apply np_bind; [|easy].
      unfold types_token. apply np_bind; [|easy]. apply np_gmap. intros [x t] Hx.
      cbn [ctx typedefs] in Hx. destruct t as [d|y l|y l|y u]; cbn [type_token_of].
      + destruct (remove_typedef _); [easy|]. destruct (names_in Hx) as [c1 o]. destruct (good_types G Hx) as [gd nx].
        apply np_bind; [now apply type_token_np|]. intros o' _.
        apply np_bind; [now destruct o'|]. intros [ty []] _; try easy.
        apply np_bind; [|easy]. apply camel_np; [|easy]. exact (good_type_name gd nx).
      + apply np_bind; [now apply enum_np with y|easy].
      + apply np_bind; [now apply struct_np with y|easy].
      + apply np_bind; [now apply union_np with y|easy].
  Qed.
End Panic.
