(** The statements of the generator properties that concern names, numbers,
    termination and panics, from the lemmas on the model. *)
From Verif Require Import Base RustTypes Nom NomFacts Keyword Ast ParserModel SpecGrammar SpecParse
  ConstProofs ParserLemmas CaseModel SpecCase CaseProofs RustAst GenModel SpecGen SpecItems GenFacts GenTotal
  GenPanic.
Set Implicit Arguments.
Unset Strict Implicit.
Local Open Scope string_scope.
Local Open Scope list_scope.

(** ** C40 *)
Lemma c40_value cfg ds cs ts k v z : setup_context ds = (cs, ts) -> good_spec ds -> good_value v ->
  value_is ds v z -> fits k z -> greturns (fun n => resolve_value (Context cfg cs ts) n k v) (GOk z).
Proof.
  rewrite setup_spec. intros [= <- <-] G gv V F. apply value_resolves; try easy. now apply good_spec_values.
Qed.
Lemma c40_only cfg ds cs ts k v z : setup_context ds = (cs, ts) -> good_spec ds -> good_value v ->
  one_scope ds -> greturns (fun n => resolve_value (Context cfg cs ts) n k v) (GOk z) ->
  value_is ds v z /\ fits k z.
Proof.
  rewrite setup_spec. intros [= <- <-] G gv S H. apply greturns_run in H as (n & H & _).
  eapply resolves_value; eauto. now apply good_spec_values.
Qed.
Lemma c40_missing cfg ds cs ts k x : setup_context ds = (cs, ts) ->
  ~ In x (map fst (const_defs ds)) -> ~ In x (map fst (member_defs ds)) ->
  greturns (fun n => resolve_value (Context cfg cs ts) n k (VIdent x)) (GErr (GNotFoundIdentifier x)).
Proof. rewrite setup_spec. intros [= <- <-]. apply resolve_missing. Qed.

(** ** C41 *)
Lemma c41 cfg ds : well_founded_names ds -> exists r, greturns (fun n => gen_code n cfg ds) r.
Proof. intros W. exact (@gen_total cfg ds W). Qed.
Lemma c41_one cfg ds r s : greturns (fun n => gen_code n cfg ds) r -> greturns (fun n => gen_code n cfg ds) s ->
  r = s.
Proof. apply greturns_fun. Qed.

(** ** C42 *)
Lemma c42 cfg ds : good_spec ds -> names_ok ds -> one_scope ds ->
  numbers_ok
    (fun z => (overflow_checks cfg = true \/ enum_complement_index cfg = true -> z <> 2 ^ 31 - 1) /\
              (enum_complement_index cfg = true -> -1 <= z))
    (fun z => overflow_checks cfg = true -> z <> 2 ^ 32 - 1) ds ->
  ~ greturns (fun n => gen_code n cfg ds) GPanic.
Proof. intros G N S M H. apply greturns_run in H as (n & H & _). now apply (@gen_np cfg ds G N S M n). Qed.

(** ** C51 *)
Lemma camel_exact x y : camelled x y <-> y = upper_camel_case x.
Proof.
  split.
  - intros [[N ->]|(ps & L & F & -> & ->)]; symmetry; [now apply camel_plain|now apply camel_join].
  - intros ->. unfold camelled.
    destruct (existsb (Ascii.eqb "_") x) eqn:e.
    + right. exists (split_on (Ascii.eqb "_") x).
      assert (F : Forall (fun p => ~ In underscore p) (split_on (Ascii.eqb "_") x)).
      { eapply Forall_impl; [|apply pieces_no_us]. intros p. apply not_in_us. }
      assert (L : (2 <= length (split_on (Ascii.eqb "_") x))%nat).
      { pose proof (@pieces_ne x) as ne. pose proof (pieces_join x) as J.
        destruct (split_on (Ascii.eqb "_") x) as [|p [|q ps]]; [easy| |cbn; lia].
        exfalso. cbn in J. subst p. inversion F as [|? ? K _]. apply K. now apply in_us. }
      split; [easy|]. split; [easy|]. split; [symmetry; apply pieces_join|].
      rewrite <- (pieces_join x) at 1. now apply camel_join.
    + left. apply not_in_us in e. split; [easy|]. now apply camel_plain.
Qed.
Lemma camel_of_camel x : camel_of x (camel x).
Proof. unfold camel_of, camel. rewrite list_ascii_of_string_of_list_ascii. now apply camel_exact. Qed.
Lemma camel_ident_of x y : upper_camel_case_ident x = GOk y -> y = camel x /\ camel_of x y.
Proof.
  unfold upper_camel_case_ident, ident_new. destruct (ident_text _); [|discriminate].
  intros [= <-]. split; [easy|]. apply camel_of_camel.
Qed.

Lemma camel_start t : match upper_camel_case t with c :: _ => ~ In c smalls | [] => True end.
Proof.
  pose proof (camel_head t) as H. unfold head_ok in H. destruct (upper_camel_case t) as [|c u]; [easy|].
  intros K. apply small_spec in K. congruence.
Qed.
Lemma c51_no_us t : ~ In underscore (upper_camel_case t).
Proof. apply not_in_us, camel_no_us. Qed.

(** ** C52 *)
Lemma snake_exact x y : snaked x y <-> y = snake_case x.
Proof. apply snaked_eq. Qed.
Lemma c52_no_capital t c : In c (snake_case t) -> ~ In c capitals.
Proof.
  intros H K. apply capital_spec in K. pose proof (snake_no_upper t) as F. rewrite Forall_forall in F.
  specialize (F _ H). cbn in F. congruence.
Qed.
Lemma c52_id t : (forall c, In c t -> ~ In c capitals) -> snake_case t = t.
Proof.
  intros H. apply snake_id. apply Forall_forall. intros c Hc. specialize (H c Hc).
  destruct (is_upper c) eqn:e; [|easy]. exfalso. apply H. now apply capital_spec.
Qed.

(** ** C53 *)
Lemma const_token_for x v c : good_name x -> good_value v -> constant_token (x, v) = GOk c ->
  const_item_for (x, v) c.
Proof.
  intros gx gv. cbn. rewrite plain_ident by easy. cbn [gbind].
  destruct v as [k|y].
  - cbn [convert_value_token good_value] in *. destruct (stands_total gv) as [z S].
    assert (D : fits KU32 z \/ ~ fits KU32 z) by (cbn; lia). destruct D as [D|D].
    + rewrite (constant_fits gv S D). cbn. intros [= <-]. split; [easy|]. exists z. cbn in *.
      split; [easy|]. split; [easy|]. left. split; [easy|lia].
    + rewrite (constant_overflows gv S D). cbn [gbind].
      assert (D' : fits KU64 z \/ ~ fits KU64 z) by (cbn; lia). destruct D' as [D'|D'].
      * rewrite (constant_fits gv S D'). cbn. intros [= <-]. split; [easy|]. exists z. cbn in *.
        split; [easy|]. split; [easy|]. right. split; [easy|lia].
      * rewrite (constant_overflows gv S D'). discriminate.
  - cbn [convert_value_token]. rewrite plain_ident by exact gv. cbn. intros [= <-]. easy.
Qed.
Lemma good_consts ds : good_spec ds -> Forall (fun p => good_name (fst p) /\ good_value (snd p)) (const_defs ds).
Proof.
  intros G. apply Forall_forall. intros [x v] H. unfold const_defs in H. apply in_flat_map in H as (d & Hd & H).
  unfold good_spec in G. rewrite Forall_forall in G. specialize (G _ Hd).
  destruct d; try easy. destruct H as [[= <- <-]|[]]. exact G.
Qed.
Lemma gen_ok_parts cfg ds f n : gen_code n cfg ds = GOk f ->
  constants_token (ctx cfg ds) = GOk (fi_consts f) /\ types_token (ctx cfg ds) n = GOk (fi_types f).
Proof.
  rewrite gen_code_eq. intros H. apply gbind_ok in H as (c & H1 & H). apply gbind_ok in H as (t & H2 & H).
  cbv zeta in H. injection H as <-. easy.
Qed.
Lemma c53 cfg ds f : good_spec ds -> greturns (fun n => gen_code n cfg ds) (GOk f) ->
  Forall2 const_item_for (const_defs ds) (fi_consts f).
Proof.
  intros G H. apply greturns_run in H as (n & H & _). apply gen_ok_parts in H as [H _].
  apply gmap_ok in H. cbn [constants ctx] in H. pose proof (good_consts G) as F.
  induction H as [|[x v] c l cs h H IH]; [constructor|]. inversion F as [|? ? [g1 g2] F']; subst.
  constructor; [now apply const_token_for|now apply IH].
Qed.
Lemma c53_err cfg ds x k z : good_spec ds -> In (x, VConst k) (const_defs ds) -> stands_for k z ->
  ~ 0 <= z < 2 ^ 64 -> greturns (fun n => gen_code n cfg ds) (GErr GParse).
Proof.
  intros G H S F. split; [easy|]. exists 0%nat. intros n _. rewrite gen_code_eq.
  enough (E : constants_token (ctx cfg ds) = GErr GParse) by now rewrite E.
  unfold constants_token. cbn [constants ctx]. pose proof (good_consts G) as GC. clear G.
  induction (const_defs ds) as [|[y v] l IH]; [easy|]. inversion GC as [|? ? [gy gv] GC']; subst.
  cbn [gmap].
  assert (D : constant_token (y, v) = GErr GParse \/ exists c, constant_token (y, v) = GOk c).
  { cbn. rewrite plain_ident by easy. cbn [gbind]. destruct v as [c|i]; cbn.
    - destruct (constant_result KU32 c) as [[w ->]| ->]; cbn; [eauto|].
      destruct (constant_result KU64 c) as [[w ->]| ->]; cbn; eauto.
    - rewrite plain_ident by exact gv. cbn. eauto. }
  destruct H as [[= -> ->]|H].
  - assert (E : constant_token (x, VConst k) = GErr GParse); [|now rewrite E].
    cbn. rewrite plain_ident by easy. cbn [gbind]. cbn in gv.
    rewrite (constant_overflows gv S) by (cbn; lia). cbn.
    now rewrite (constant_overflows gv S) by (cbn; lia).
  - destruct D as [->|[c ->]]; [easy|]. cbn [gbind]. now rewrite IH.
Qed.

(** ** C54 *)
Lemma c54 f checks : let c := main_config f checks in
  remove_typedef c = true /\
  (enum_impl_std_trait c = true <-> use_std_trait f = true) /\
  (enum_impl_indexer c = true <-> use_indexer f = true /\ use_std_trait f = false) /\
  (union_impl_union c = true <-> use_union f = true) /\
  (union_impl_indexer c = true <->
     (use_extra_trait f = true \/ use_indexer f = true) /\ use_union f = false).
Proof. destruct f as [[] [] [] []]; cbn; intuition discriminate. Qed.

(** ** C55 *)
Lemma item_name cx n d l : type_token_of cx n d = GOk l ->
  match l with
  | [] => remove_typedef (cx_config cx) && is_typedef (snd d) = true
  | [i] => remove_typedef (cx_config cx) && is_typedef (snd d) = false /\ item_for d i
  | _ => False
  end.
Proof.
  destruct d as [x t]. destruct t as [d|y l'|y l'|y u]; cbn [type_token_of snd is_typedef].
  - destruct (remove_typedef _); cbn [andb]; [now intros [= <-]|]. intros H.
    apply gbind_ok in H as (o & _ & H). apply gbind_ok in H as ([ty op] & _ & H).
    destruct op; try discriminate. apply gbind_ok in H as (z & H & [= <-]). split; [easy|].
    now apply camel_ident_of in H.
  - intros H. apply gbind_ok in H as (e & H & [= <-]). rewrite andb_false_r. split; [easy|].
    unfold convert_enum_token in H. apply gbind_ok in H as (ix & _ & H). apply gbind_ok in H as (ni & Hn & H).
    apply gbind_ok in H as (vs & _ & H). apply gbind_ok in H as (it & _ & H). cbv zeta in H.
    destruct it as [|[d0 z0] it]; [discriminate|]. injection H as <-. now apply camel_ident_of in Hn.
  - intros H. apply gbind_ok in H as (e & H & [= <-]). rewrite andb_false_r. split; [easy|].
    unfold convert_struct_token in H. apply gbind_ok in H as (ix & _ & H).
    apply gbind_ok in H as (ni & Hn & [= <-]). now apply camel_ident_of in Hn.
  - intros H. apply gbind_ok in H as (e & H & [= <-]). rewrite andb_false_r. split; [easy|].
    destruct u as [c sp o]. cbn [convert_union_token] in H. apply gbind_ok in H as (ni & Hn & H).
    apply gbind_ok in H as (c' & _ & H). apply gbind_ok in H as (p & _ & H). apply gbind_ok in H as (q & _ & H).
    cbv zeta in H. destruct (up_default q); [|discriminate]. injection H as <-.
    now apply camel_ident_of in Hn.
Qed.
Lemma c55 cfg ds f : greturns (fun n => gen_code n cfg ds) (GOk f) ->
  Forall2 item_for (item_defs (remove_typedef cfg) ds) (fi_types f).
Proof.
  intros H. apply greturns_run in H as (n & H & _). apply gen_ok_parts in H as [_ H].
  unfold types_token in H. apply gbind_ok in H as (ls & H & [= <-]). apply gmap_ok in H.
  unfold item_defs. cbn [typedefs ctx] in H.
  induction H as [|d l ts ls h H IH]; [constructor|].
  apply item_name in h. cbn [filter cx_config ctx] in *. destruct l as [|i [|]]; [| |easy].
  - rewrite h. cbn. exact IH.
  - destruct h as [-> h]. cbn. now constructor.
Qed.

(** ** C57 *)
Lemma c57_screaming s t : screaming s -> screaming t -> In underscore s -> In underscore t ->
  upper_camel_case s = upper_camel_case t -> s = t.
Proof. apply camel_screaming_inj. Qed.
Lemma c57_plain c s d t : ~ In underscore (c :: s) -> ~ In underscore (d :: t) ->
  upper_camel_case (c :: s) = upper_camel_case (d :: t) -> s = t /\ big c = big d.
Proof. intros N M. rewrite !camel_plain by easy. cbn. now intros [= -> ->]. Qed.
Lemma c57_fields s t : (forall c, In c s -> ~ In c capitals) -> (forall c, In c t -> ~ In c capitals) ->
  snake_case s = snake_case t -> s = t.
Proof. intros H K. now rewrite !c52_id. Qed.
Lemma c57_any (s t : text) : upper_camel_case s = upper_camel_case t \/ snake_case s = snake_case t ->
  letters s = letters t.
Proof.
  intros [H|H]; [rewrite <- (camel_letters s), <- (camel_letters t)|rewrite <- (snake_letters s), <- (snake_letters t)];
    now rewrite H.
Qed.

(** ** C58 *)
Lemma words_reserved y : In y rust_words -> rust_reserved y = true.
Proof.
  revert y. apply Forall_forall. repeat (constructor; [reflexivity|]). constructor.
Qed.
Lemma raw_not_bare x y : rust_reserved x = true -> snake_case_ident ("r#" ++ x) <> GOk (Id y).
Proof.
  intros e. apply reserved_in in e.
  assert (F : Forall (fun x => match snake_case_ident ("r#" ++ x) with GOk (Id _) => False | _ => True end)
    KEYWORDS_RUST) by (repeat (constructor; [exact I|]); constructor).
  rewrite Forall_forall in F. specialize (F x e). intros H. now rewrite H in F.
Qed.
Lemma bare_word x y : good_name x -> snake_case_ident (if rust_reserved x then "r#" ++ x else x)%string = GOk (Id y) ->
  In y rust_words -> has_capital x.
Proof.
  intros g H K.
  destruct (rust_reserved x) eqn:e.
  - exfalso. now apply (@raw_not_bare x y e).
  - rewrite snake_plain in H by easy. injection H as <-.
    destruct (existsb is_upper (chars x)) eqn:u.
    + apply existsb_exists in u as (c & Hc & Uc). exists c. split; [easy|]. now apply capital_spec.
    + exfalso. apply words_reserved in K. unfold snake in K. rewrite snake_id in K.
      * rewrite string_of_list_ascii_of_string in K. congruence.
      * apply Forall_forall. intros c Hc. destruct (is_upper c) eqn:i; [|easy].
        assert (existsb is_upper (chars x) = true) by (apply existsb_exists; now exists c). congruence.
Qed.
Lemma struct_items cfg ds f n s : gen_code n cfg ds = GOk f -> In (IStruct s) (fi_types f) ->
  exists x y l, In (x, TdStruct y l) (type_defs ds) /\ convert_struct_token (ctx cfg ds) n x l = GOk s.
Proof.
  intros H I. apply gen_ok_parts in H as [_ H].
  unfold types_token in H. apply gbind_ok in H as (ls & H & E). injection E as E. rewrite <- E in I. clear E.
  apply gmap_ok in H. cbn [typedefs ctx] in H.
  induction H as [|[x t] l ts ls h H IH]; [easy|]. cbn [concat] in I. apply in_app_iff in I as [I|I].
  - clear IH. destruct t as [d|y l'|y l'|y u]; cbn [type_token_of] in h.
    + destruct (remove_typedef _); [injection h as <-; easy|].
      apply gbind_ok in h as (o & _ & h). apply gbind_ok in h as ([ty op] & _ & h).
      destruct op; try discriminate. apply gbind_ok in h as (z & _ & [= <-]). destruct I as [I|[]]. discriminate.
    + apply gbind_ok in h as (e & _ & [= <-]). destruct I as [I|[]]. discriminate.
    + apply gbind_ok in h as (e & h & [= <-]). destruct I as [I|[]]. injection I as <-.
      exists x, y, l'. split; [now left|easy].
    + apply gbind_ok in h as (e & _ & [= <-]). destruct I as [I|[]]. discriminate.
  - destruct (IH I) as (x' & y & l' & a & b). exists x', y, l'. split; [now right|easy].
Qed.
Lemma c58 cfg ds f y : good_spec ds -> greturns (fun n => gen_code n cfg ds) (GOk f) ->
  emitted_field f (Id y) -> In y rust_words -> exists x, field_of ds x /\ has_capital x /\ snaked (chars x) (chars y).
Proof.
  intros G H (s & fd & I & If & E) K. apply greturns_run in H as (n & H & _).
  destruct (struct_items H I) as (x & x' & l & Hx & C).
  unfold convert_struct_token in C. apply gbind_ok in C as (fs & C & D). apply gbind_ok in D as (ni & _ & [= <-]).
  cbn [st_fields] in If. apply gmap_ok in C.
  assert (T : exists d, In d l /\ struct_field (ctx cfg ds) n x d = GOk fd).
  { clear - C If. induction C as [|d q l fs h C IH]; [easy|]. destruct If as [->|If].
    - exists d. split; [now left|easy].
    - destruct (IH If) as (d' & a & b). exists d'. split; [now right|easy]. }
  destruct T as (d & Hd & T). unfold struct_field in T. destruct (decl_name d) as [z|] eqn:Ez; [|discriminate].
  apply gbind_ok in T as (o & _ & T). apply gbind_ok in T as ([ty op] & _ & T). cbv zeta in T.
  apply gbind_ok in T as (i & Hi & [= <-]). cbn [fd_name] in E. subst i.
  assert (Dz : declared d = Some z) by (rewrite <- Ez; now destruct d).
  destruct (good_types G Hx) as [gt _]. cbn in gt. destruct gt as (_ & _ & gl). rewrite Forall_forall in gl.
  assert (gz : good_name z) by exact (good_declared (gl _ Hd) Dz).
  exists z. split; [|split].
  - now exists x, x', l, d.
  - eapply bare_word; eauto.
  - destruct (rust_reserved z) eqn:e.
    + exfalso. now apply (@raw_not_bare z y e).
    + rewrite snake_plain in Hi by easy. injection Hi as <-. unfold snake.
      rewrite list_ascii_of_string_of_list_ascii. now apply snake_exact.
Qed.
