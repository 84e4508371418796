(** The token trees of every item are parsed as this item. *)
From Verif Require Import Base RustTypes SpecCase Nom GenModel RustAst RustText SpecRust SpecSyntax TextLex TextParse.
Set Implicit Arguments.
Unset Strict Implicit.
Local Open Scope string_scope.
Local Open Scope list_scope.
Local Open Scope nat_scope.

Notation Wd := (Forall (fun x => plain_word x = true)).

Section Items.
  Variable n : nat.
  Hypothesis N : 6 <= n.

  Definition prefix_of (cs : list call) (is : list sitem) : Prop :=
    forall r l, Many (get_item n) r l -> Many (get_item n) (T cs ++ r) (is ++ l).
  Lemma prefix_nil : prefix_of [] [].
  Proof. intros r l H. exact H. Qed.
  Lemma prefix_app a b i j : prefix_of a i -> prefix_of b j -> prefix_of (a ++ b) (i ++ j).
  Proof. intros H K r l M. rewrite T_app, <- !app_assoc. now apply H, K. Qed.
  Lemma prefix_one cs i : T cs <> [] -> (forall r, get_item n (T cs ++ r) = Some (i, r)) -> prefix_of cs [i].
  Proof. intros E H r l M. apply many_cons; [exact E|apply H|exact M]. Qed.
  Lemma prefix_flat {A} (f : A -> list call) g l : (forall a, In a l -> prefix_of (f a) (g a)) -> prefix_of (flat_map f l) (flat_map g l).
  Proof.
    induction l as [|a l IH]; intros H; [apply prefix_nil|]. cbn [flat_map]. apply prefix_app; [apply H; now left|].
    apply IH. intros. apply H. now right.
  Qed.
  Lemma prefix_map {A} (f : A -> list call) g l : (forall a, In a l -> prefix_of (f a) [g a]) -> prefix_of (flat_map f l) (map g l).
  Proof.
    intros H. replace (map g l) with (flat_map (fun a => [g a]) l) by (clear; induction l; cbn; congruence). now apply prefix_flat.
  Qed.

  (** ** use, const, type *)
  Lemma use_ok g : prefix_of (group_calls g) (use_items g).
  Proof.
    assert (U : forall cs p x, (forall r, get_item n (T cs ++ r) = Some (SiUse p [x], r)) -> T cs <> [] -> prefix_of cs [SiUse p [x]])
      by (intros; now apply prefix_one).
    destruct g; cbn [group_calls use_items].
    - apply U; [|discriminate]. intros r. now destruct r as [|[[]|] r].
    - apply prefix_app with (i := [_]) (j := [_]); apply U; try discriminate; intros r; now destruct r as [|[[]|] r].
    - apply prefix_app with (i := [_]) (j := [_]); apply U; try discriminate; intros r; now destruct r as [|[[]|] r].
  Qed.
  Lemma use_first : prefix_of (use_calls (w "serde") (braces (w "Deserialize" ++ o "," ++ w "Serialize"))) [SiUse ["serde"] ["Deserialize"; "Serialize"]].
  Proof. apply prefix_one; [discriminate|]. reflexivity. Qed.

  Lemma no_call_semi r : no_call (Leaf (LOp ";") :: r).
  Proof. split; [apply more_not; reflexivity|easy]. Qed.
  Lemma const_ok c : Wd (co_name c :: token_words (co_value c)) -> prefix_of (const_calls c) [const_item_of c].
  Proof.
    intros F. inversion F as [|? ? F1 F2]; subst. apply prefix_one; [discriminate|]. intros r. unfold const_calls. cbv zeta.
    set (ty := if co_wide c then "u64" else "u32"). assert (P : plain_word ty = true) by (subst ty; now destruct (co_wide c)).
    tr. unfold get_item. rewrite !kw_ne, attrs_none by reflexivity. unfold get_vis. rewrite kw_eq, !kw_ne, kw_eq by reflexivity.
    unfold get_const. rewrite name_word, op_eq by exact F1.
    destruct n as [|m]; [lia|]. rewrite type_named by (exact P || stop). rewrite op_eq.
    do 2 (destruct m as [|m]; [lia|]).
    rewrite expr_operand with (e := value_expr ty (co_value c)) (r := Leaf (LOp ";") :: r); [|apply operand_value; [exact F2|apply no_call_semi]|reflexivity].
    rewrite op_eq. unfold const_item_of. fold ty. reflexivity.
  Qed.
  Lemma alias_ok x t : Wd (x :: type_words t) -> need t <= n -> prefix_of (type_calls (IAlias x t)) [SiType false x (type_of t)].
  Proof.
    intros F L. inversion F as [|? ? F1 F2]; subst. apply prefix_one; [discriminate|]. intros r. cbn [type_calls]. tr.
    unfold get_item. rewrite !kw_ne, attrs_none by reflexivity. unfold get_vis. rewrite !kw_ne, kw_eq by reflexivity.
    unfold get_alias. rewrite name_word, op_eq by exact F1. rewrite type_ty by (assumption || stop). now rewrite op_eq.
  Qed.

  (** ** Definitions with attributes *)
  Lemma item_def cs a kwd ts (get : nat -> list sattr -> bool -> parser sitem) i r :
    T cs <> [] -> (exists t u, T cs = Leaf (LOp "#") :: t :: u) ->
    (forall r, op "#" r = None -> attrs (T cs ++ r) = Some (a, r)) ->
    (kwd = "enum" /\ get = get_enum \/ kwd = "struct" /\ get = get_struct) ->
    get n a true (ts ++ r) = Some (i, r) ->
    get_item n (T cs ++ Leaf (LWord "pub") :: Leaf (LWord kwd) :: ts ++ r) = Some (i, r).
  Proof.
    intros _ (t & u & E) A K G. unfold get_item.
    replace (kw "use" (T cs ++ Leaf (LWord "pub") :: Leaf (LWord kwd) :: ts ++ r)) with (@None (list tree)) by now rewrite E.
    replace (kw "impl" (T cs ++ Leaf (LWord "pub") :: Leaf (LWord kwd) :: ts ++ r)) with (@None (list tree)) by now rewrite E.
    rewrite A by reflexivity. unfold get_vis. rewrite kw_eq.
    destruct K as [[-> ->]|[-> ->]]; [rewrite kw_eq|rewrite kw_ne, kw_eq by reflexivity]; exact G.
  Qed.

  (** ** struct *)
  Definition ident_plain (i : rident) : Prop := match i with Id x => plain_word x = true | RawId _ => True end.
  Lemma after_stops r : after r -> stops r.
  Proof. intros [->|[r' ->]]; [split; reflexivity|stop]. Qed.
  Lemma field_parse fd r : ident_plain (fd_name fd) -> Wd (type_words (fd_ty fd)) -> need (fd_ty fd) <= n -> after r ->
    get_field n (T (field_calls fd) ++ r) =
    Some (SField (attrs_of (fd_attr fd)) true (match fd_name fd with Id x | RawId x => x end) (type_of (fd_ty fd)), r).
  Proof.
    intros I F L A. unfold field_calls. rewrite !T_app, <- !app_assoc. unfold get_field. rewrite with_attrs by reflexivity.
    rewrite T_w, one_app. unfold get_vis. rewrite kw_eq.
    assert (E : forall u, name (T [CIdent (fd_name fd)] ++ u) = Some (match fd_name fd with Id x | RawId x => x end, u)).
    { intros u. destruct (fd_name fd) as [x|x]; cbn in I |- *; [now rewrite I|reflexivity]. }
    rewrite E, T_o, one_app, op_eq. now rewrite type_ty by (assumption || now apply after_stops).
  Qed.
  Lemma field_nonempty fd : T (field_calls fd) <> [].
  Proof. unfold field_calls. now destruct (fd_attr fd). Qed.
  Lemma struct_ok s : plain_word (st_name s) = true ->
    (forall fd, In fd (st_fields s) -> ident_plain (fd_name fd) /\ Wd (type_words (fd_ty fd)) /\ need (fd_ty fd) <= n) ->
    prefix_of (struct_calls s) (struct_items s).
  Proof.
    intros P F. unfold struct_items. apply prefix_one; [discriminate|]. intros r. unfold struct_calls. tr.
    apply item_def with (get := get_struct) (ts := [Leaf (LWord (st_name s)); Node BCurly _])
      (a := [derives ["Clone"; "Debug"; "Default"; "Deserialize"; "Serialize"]]); [discriminate| | |now right|].
    - exists (Node BSquare (T (w "derive" ++ parens (commas (map w ["Clone"; "Debug"; "Default"; "Deserialize"; "Serialize"]))))), []. reflexivity.
    - intros u U. apply derive_attrs; [repeat constructor|now apply attrs_none].
    - unfold get_struct. cbn [app]. rewrite name_word by exact P.
      rewrite (@Sep_list _ (get_field n) _ (map (fun fd => SField (attrs_of (fd_attr fd)) true
         (match fd_name fd with Id x | RawId x => x end) (type_of (fd_ty fd))) (st_fields s))); [reflexivity|].
      apply Sep_commas; [|intros; apply field_nonempty]. intros fd u Hf A. destruct (F fd Hf) as (F1 & F2 & F3). now apply field_parse.
  Qed.

  (** ** impls *)
  Lemma many_last (a : list tree) x : a <> [] -> get_member n a = Some (x, []) -> Many (get_member n) a [x].
  Proof. intros E H. rewrite <- (app_nil_r a). apply many_cons; [exact E|now rewrite app_nil_r|constructor]. Qed.

  Lemma param_self : list_of (get_param n) [Leaf (LOp "&"); Leaf (LWord "self")] = Some [PaSelf].
  Proof. reflexivity. Qed.
  Lemma param_typed x ts t : plain_word x = true -> get_type n ts = Some (t, []) ->
    list_of (get_param n) (Leaf (LWord x) :: Leaf (LOp ":") :: ts) = Some [PaTyped x t].
  Proof.
    intros P H. apply Sep_list, sep_last; [discriminate|]. unfold get_param. rewrite op_word, name_word, op_eq by exact P. now rewrite H.
  Qed.
  Lemma type_word x r : plain_word x = true -> stops r -> get_type n (Leaf (LWord x) :: r) = Some (ty1 x, r).
  Proof. intros P S. destruct n; [lia|]. now apply type_named. Qed.
  Lemma type_self r : stops r -> get_type n (Leaf (LWord "Self") :: r) = Some (ty1 "Self", r).
  Proof.
    intros [M L]. destruct n; [lia|]. cbn [get_type op]. unfold get_path. cbn [op head_name].
    change (plain_word "Self" || existsb (String.eqb "Self") ["self"; "Self"; "super"; "crate"]) with true. cbv beta iota. now rewrite M, L.
  Qed.

  Lemma default_ok x v e : plain_word x = true -> get_expr n (T (dcolon (w x) v)) = Some (e, []) ->
    prefix_of (default_impl x v) [default_of x e].
  Proof.
    intros P H. apply prefix_one; [discriminate|]. intros r. unfold default_impl.
    rewrite !T_app, T_braces, <- !app_assoc, !T_w, !one_app.
    change (Leaf (LWord "Default") :: ?l) with ([Leaf (LWord "Default")] ++ l).
    apply impl_item; [exact P|intros u U; now apply type_word|lia|].
    apply many_last; [discriminate|]. rewrite !T_app, T_braces, !T_w, T_parens, T_nil, T_o. cbn [app].
    apply member_fn with (ret := [Leaf (LWord "Self")]); [reflexivity|reflexivity| |exact H].
    intros u U. now apply type_self.
  Qed.

  Lemma token_plain v : is_word v -> Wd (token_words v) -> exists y, v = TokId y /\ token_name v = y /\ plain_word y = true.
  Proof. destruct v as [z|y]; [easy|]. intros _ F. inversion F; subst. now exists y. Qed.
  Lemma match_expr x (cs : list call) arms : In x ["index"; "self"; "v"; "value"] -> Sep (get_arm (n - 2)) (T cs) arms ->
    get_expr n (T (w "match" ++ w x ++ braces cs)) = Some (matching x arms, []).
  Proof.
    intros I S. rewrite !T_app, T_braces, !T_w. cbn [app]. assert (E : exists m, n = 4 + m) by (exists (n - 4); lia).
    destruct E as [m E]. rewrite E. rewrite E in S. now apply expr_match.
  Qed.
  Lemma arm_named p p' v r : (forall u, get_pat (n - 2) (T p ++ Leaf (LOp "=>") :: u) = Some (p', Leaf (LOp "=>") :: u)) ->
    is_word v -> Wd (token_words v) -> after r ->
    get_arm (n - 2) (T (arm p (ok (stringify (value_calls "u32" v)))) ++ r) = Some ((p', named (token_name v)), r).
  Proof.
    intros H V F A. destruct (token_plain V F) as (y & -> & E & P). cbn [value_calls]. rewrite E. apply arm_of; [apply H|].
    assert (Q : exists m, n - 2 = 4 + m) by (exists (n - 6); lia). destruct Q as [m ->]. now apply expr_named.
  Qed.
  Lemma pat_num z s u : get_pat (n - 2) (T (num s z) ++ u) = Some (SpInt z s, u).
  Proof. assert (Q : exists m, n - 2 = S m) by (exists (n - 3); lia). destruct Q as [m ->]. apply pat_int. Qed.
  Lemma wild_named v : is_word v -> Wd (token_words v) ->
    Sep (get_arm (n - 2)) (T (wild_arm (ok (stringify (value_calls "u32" v))))) [(SpWild, named (token_name v))].
  Proof.
    intros V F. destruct (token_plain V F) as (y & -> & E & P). rewrite E.
    assert (Q : exists m, n - 2 = 4 + m) by (exists (n - 6); lia). destruct Q as [m ->]. apply wild_sep. intros r A. now apply expr_named.
  Qed.
  Lemma wild_convert : Sep (get_arm (n - 2)) (T (wild_arm err_convert)) [(SpWild, convert true)].
  Proof.
    assert (Q : exists m, n - 2 = 4 + m) by (exists (n - 6); lia). destruct Q as [m ->]. apply wild_sep. intros r A. now apply expr_convert.
  Qed.

  Lemma forall_flat {A} (P : string -> Prop) (f : A -> list string) l a : Forall P (flat_map f l) -> In a l -> Forall P (f a).
  Proof. intros F H. rewrite Forall_forall in *. intros x Hx. apply F. apply in_flat_map. eauto. Qed.

  Lemma result_type u : get_type n (T result_str ++ u) = Some (static_str, u).
  Proof. assert (Q : exists m, n = 3 + m) by (exists (n - 3); lia). destruct Q as [m ->]. apply result_str_type. Qed.
  Lemma error_member u : get_member n (T (type_error global_error) ++ u) = Some (error_type true, u).
  Proof. apply member_type. intros r S. assert (Q : exists m, n = 1 + m) by (exists (n - 1); lia). destruct Q as [m ->]. now apply global_error_type. Qed.

  Lemma indexer_ok x ix : plain_word x = true -> Wd (indexer_words ix) -> indexer_legible ix ->
    prefix_of (indexer_calls x ix) [indexer_of x ix].
  Proof.
    intros P F (V & NE & NI). unfold indexer_words in F. apply Forall_app in F as [F1 F]. apply Forall_app in F as [F2 F3].
    unfold indexer_tokens in V. apply Forall_app in V as [V1 V]. apply Forall_app in V as [V2 V3]. rewrite Forall_forall in V1, V3.
    apply prefix_one; [discriminate|]. intros r. unfold indexer_calls.
    rewrite !T_app, T_braces, <- !app_assoc, !T_w, !one_app.
    change (Leaf (LWord "XdrIndexer") :: ?l) with ([Leaf (LWord "XdrIndexer")] ++ l).
    apply impl_item; [exact P|intros u U; now apply type_word|lia|].
    rewrite T_app. apply many_cons; [discriminate|apply error_member|].
    set (names := (w "match" ++ w "index" ++ braces _) : list call).
    set (index := (w "match" ++ w "self" ++ braces _) : list call).
    replace (T _) with (T (w "fn" ++ w "name_by_index" ++ parens (w "index" ++ o ":" ++ w "i32") ++ o "->" ++ result_str ++ braces names) ++
       T (w "fn" ++ w "index" ++ parens (o "&" ++ w "self") ++ o "->" ++ w "i32" ++ braces index))
      by (rewrite <- T_app; f_equal; now rewrite <- !app_assoc).
    apply many_cons; [discriminate| |].
    - tr. eapply eq_trans; [apply member_fn with (ret := T result_str)|].
      + reflexivity.
      + apply param_typed; [reflexivity|]. apply type_word; [reflexivity|stop].
      + intros u _. apply result_type.
      + unfold names. apply match_expr; [now left|]. rewrite T_app, T_app, T_o, one_app.
        apply Sep_commas_more with (g := fun p => (SpInt (fst p) "i32", named (token_name (snd p)))); [|exact NE|].
        * intros [z v] u Hb A. cbn [fst snd]. apply arm_named; [intros; apply pat_num| | |exact A].
          -- apply V1. apply in_map_iff. now exists (z, v).
          -- exact (forall_flat F1 Hb).
        * instantiate (1 := [(SpWild, match ix_other ix with Some v => named (token_name v) | None => convert true end)]).
          destruct (ix_other ix) as [v|].
          -- inversion V2; subst. now apply wild_named.
          -- exact wild_convert.
      + reflexivity.
    - apply many_last; [discriminate|]. tr. eapply eq_trans; [apply member_fn with (ret := [Leaf (LWord "i32")])|].
      + reflexivity.
      + exact param_self.
      + intros u U. now apply type_word.
      + unfold index. apply match_expr; [now (right; left)|]. rewrite T_app, T_app, T_o, one_app.
        apply Sep_commas_more with (g := fun p => match p with (v, paren, z) =>
                  (let q := plain [x; token_name v] in if paren : bool then SpTuple q [SpWild] else SpPath q,
                   int_expr "i32" z) end) (k := if ix_unimplemented ix then [(SpWild, SeMacro "unimplemented" [])] else []); [|exact NI|].
        * intros [[v paren] z] u Hb A.
          assert (Vv : is_word v) by (apply V3; apply in_map_iff; now exists (v, paren, z)).
          pose proof (forall_flat F3 Hb) as Fv. cbn [fst snd] in Fv.
          destruct (token_plain Vv Fv) as (y & -> & E & Py). rewrite E. cbn [value_calls].
          assert (Q : exists m, n - 2 = 4 + m) by (exists (n - 6); lia). destruct Q as [m ->].
          apply arm_of; [|now apply expr_int]. destruct paren.
          -- tr. now apply pat_tuple.
          -- tr. now apply pat_path2.
        * destruct (ix_unimplemented ix); [|constructor].
          assert (Q : exists m, n - 2 = 3 + m) by (exists (n - 5); lia). destruct Q as [m ->].
          apply wild_sep. intros u A. now apply expr_unimplemented.
      + reflexivity.
  Qed.

  Lemma generic_type x a ta r : plain_word x = true -> (forall u, get_type (n - 1) (a ++ Leaf (LOp ">") :: u) = Some (ta, Leaf (LOp ">") :: u)) ->
    get_type n (Leaf (LWord x) :: Leaf (LOp "<") :: a ++ Leaf (LOp ">") :: r) = Some (ty1_of x [ta], r).
  Proof.
    intros P H. assert (Q : exists m, n = S (S m)) by (exists (n - 2); lia). destruct Q as [m E]. rewrite E in *.
    replace (S (S m) - 1) with (S m) in H by lia. apply type_generic; [exact P|]. now apply args_one.
  Qed.
  Lemma i32_type u : get_type (n - 1) ([Leaf (LWord "i32")] ++ Leaf (LOp ">") :: u) = Some (ty1 "i32", Leaf (LOp ">") :: u).
  Proof. assert (Q : exists m, n - 1 = S m) by (exists (n - 2); lia). destruct Q as [m ->]. apply type_named; [reflexivity|stop]. Qed.

  Lemma as_ref_ok x l : plain_word x = true -> Wd (map fst l) -> prefix_of (as_ref_calls x l) [as_ref_of x l].
  Proof.
    intros P F. apply prefix_one; [discriminate|]. intros r. unfold as_ref_calls. set (cs := (w "match" ++ w "self" ++ _) : list call). tr.
    apply impl_item with (tr := [Leaf (LWord "AsRef"); Leaf (LOp "<"); Leaf (LWord "i32"); Leaf (LOp ">")]); [exact P| |lia|].
    { intros u U. apply generic_type with (a := [Leaf (LWord "i32")]); [reflexivity|exact i32_type]. }
    apply many_last; [discriminate|].
    eapply eq_trans; [apply member_fn with (ret := [Leaf (LOp "&"); Leaf (LLife "static"); Leaf (LWord "i32")])|].
    - reflexivity.
    - exact param_self.
    - intros u U. assert (Q : exists m, n = S (S m)) by (exists (n - 2); lia). destruct Q as [m ->].
      change (get_type (S (S m)) ([Leaf (LOp "&"); Leaf (LLife "static"); Leaf (LWord "i32")] ++ u)) with
        (let? (t, r) := get_type (S m) (Leaf (LWord "i32") :: u) in Some (SyRef (Some "static") t, r)).
      now rewrite type_named.
    - unfold cs. apply match_expr; [now (right; left)|].
      apply Sep_commas with (g := fun p => (SpPath (plain [x; fst p]), SeRef (int_expr "i32" (snd p)))).
      + intros [y z] u Hb A. cbn [fst snd].
        assert (Py : plain_word y = true) by (rewrite Forall_forall in F; apply F; apply in_map_iff; now exists (y, z)).
        assert (Q : exists m, n - 2 = 4 + m) by (exists (n - 6); lia). destruct Q as [m ->].
        apply arm_of; [|now apply expr_ref_int]. tr. now apply pat_path2.
      + intros [y z] _. discriminate.
    - reflexivity.
  Qed.

  Lemma try_from_ok x l : plain_word x = true -> Wd (map snd l) -> l <> [] -> prefix_of (try_from_calls x l) [try_from_of x l].
  Proof.
    intros P F NE. apply prefix_one; [discriminate|]. intros r. unfold try_from_calls.
    set (body := (type_error xdr_error ++ _) : list call). tr.
    apply impl_item with (tr := [Leaf (LWord "TryFrom"); Leaf (LOp "<"); Leaf (LWord "i32"); Leaf (LOp ">")]); [exact P| |lia|].
    { intros u U. apply generic_type with (a := [Leaf (LWord "i32")]); [reflexivity|exact i32_type]. }
    unfold body. clear body. rewrite T_app. apply many_cons; [discriminate| |].
    { apply member_type. intros u U. assert (Q : exists m, n = S m) by (exists (n - 1); lia). destruct Q as [m ->]. now apply xdr_error_type. }
    apply many_last; [discriminate|]. set (cs := (w "match" ++ w "v" ++ _) : list call).
    set (rt := (w "Result" ++ o "<" ++ w "Self" ++ o "," ++ xdr_error ++ o ">") : list call).
    replace (T _) with (Leaf (LWord "fn") :: Leaf (LWord "try_from") :: Node BRound [Leaf (LWord "v"); Leaf (LOp ":"); Leaf (LWord "i32")] ::
      Leaf (LOp "->") :: T rt ++ Node BCurly (T cs) :: []) by (unfold rt; tr; reflexivity).
    eapply eq_trans; [apply member_fn|].
    - reflexivity.
    - apply param_typed; [reflexivity|]. apply type_word; [reflexivity|stop].
    - intros u U. assert (Q : exists m, n = S (S (S m))) by (exists (n - 3); lia). destruct Q as [m ->]. unfold rt. tr.
      apply type_generic; [reflexivity|]. apply args_more with (a := ty1 "Self") (r := T xdr_error ++ Leaf (LOp ">") :: u).
      + reflexivity.
      + apply args_one. apply xdr_error_type. stop.
    - unfold cs. apply match_expr; [now (right; right; left)|]. rewrite T_app, T_app, T_o, one_app.
      apply Sep_commas_more with (g := fun p => (SpInt (fst p) "i32", SeCall (plain ["Ok"]) [SePath (plain [x; snd p])])); [|exact NE|].
      + intros [z y] u Hb A. cbn [fst snd].
        assert (Py : plain_word y = true) by (rewrite Forall_forall in F; apply F; apply in_map_iff; now exists (z, y)).
        assert (Q : exists m, n - 2 = 4 + m) by (exists (n - 6); lia). destruct Q as [m ->].
        apply arm_of; [apply pat_int|now apply expr_ok_path].
      + assert (Q : exists m, n - 2 = 4 + m) by (exists (n - 6); lia). destruct Q as [m ->].
        apply wild_sep. intros u A. now apply expr_convert_local.
    - reflexivity.
  Qed.

  Lemma pat_ok p u : Wd (pat_words p) -> get_pat (n - 2) (T (pat_calls p) ++ Leaf (LOp "=>") :: u) = Some (pattern_of p, Leaf (LOp "=>") :: u).
  Proof.
    intros F. assert (Q : exists m, n - 2 = 1 + m) by (exists (n - 3); lia). destruct Q as [m ->].
    destruct p as [b|z|t x]; cbn [pat_calls pattern_of].
    - now destruct b.
    - apply pat_int.
    - inversion F as [|? ? F1 F']; subst. inversion F' as [|? ? F2 _]; subst. tr. now apply pat_path2.
  Qed.
  Lemma union_ok x ui : plain_word x = true -> Wd (union_words ui) -> union_legible ui ->
    (forall d, ui_disc ui = Some d -> S (need d) <= n) -> prefix_of (union_calls x ui) (union_of x ui).
  Proof.
    intros P F (D & V & NE & O) L. unfold union_calls, union_of, union_words in *. destruct (ui_disc ui) as [d|]; [|easy].
    specialize (L d eq_refl). apply Forall_app in F as [F1 F]. apply Forall_app in F as [F2 F3]. cbn [option_words] in F1.
    rewrite Forall_forall in V.
    apply prefix_one; [discriminate|]. intros r. set (body := (type_error global_error ++ _) : list call). tr.
    replace (Leaf (LWord "XdrUnion") :: _) with ((Leaf (LWord "XdrUnion") :: Leaf (LOp "<") :: T (ty_calls d) ++ [Leaf (LOp ">")]) ++
      Leaf (LWord "for") :: Leaf (LWord x) :: Node BCurly (T body) :: r) by (cbn [app]; now rewrite <- app_assoc).
    apply impl_item; [exact P| |lia|].
    { intros u U. cbn [app]. rewrite <- app_assoc. cbn [app]. apply generic_type; [reflexivity|]. intros v. apply type_ty; [exact F1|lia|stop]. }
    unfold body. clear body. rewrite T_app. apply many_cons; [discriminate|apply error_member|].
    apply many_last; [discriminate|]. set (cs := (w "match" ++ w "value" ++ _) : list call). tr.
    eapply eq_trans; [apply member_fn with (ret := T result_str)|].
    - reflexivity.
    - apply param_typed; [reflexivity|]. assert (Q : exists m, n = S m) by (exists (n - 1); lia). destruct Q as [m E]. rewrite E in *.
      instantiate (1 := SyRef None (type_of d)).
      change (get_type (S m) (Leaf (LOp "&") :: T (ty_calls d))) with
        (match T (ty_calls d) with
         | Leaf (LLife l) :: r => let? (t, r) := get_type m r in Some (SyRef (Some l) t, r)
         | _ => let? (t, r) := get_type m (T (ty_calls d)) in Some (SyRef None t, r)
         end).
      assert (H : get_type m (T (ty_calls d)) = Some (type_of d, [])).
      { rewrite <- (app_nil_r (T (ty_calls d))). apply type_ty; [exact F1|lia|split; reflexivity]. }
      rewrite H. destruct (T (ty_calls d)) as [|[[]|] ts] eqn:Ed; try reflexivity. exfalso. clear -Ed. destruct d; discriminate Ed.
    - intros u _. apply result_type.
    - unfold cs. apply match_expr; [now (right; right; right; left)|]. rewrite T_app, T_app, T_o, one_app.
      apply Sep_commas_more with (g := fun p => (pattern_of (fst p), named (token_name (snd p)))); [|exact NE|].
      + intros [p v] u Hb A. cbn [fst snd]. pose proof (forall_flat F2 Hb) as Fb. cbn [fst snd] in Fb. apply Forall_app in Fb as [Fb1 Fb2].
        apply arm_named; [intros; now apply pat_ok| |exact Fb2|exact A]. apply V. apply in_map_iff. now exists (p, v).
      + instantiate (1 := match ui_other ui with
                | Some (Some v) => [(SpWild, named (token_name v))]
                | Some None => [(SpWild, convert true)]
                | None => []
                end).
        destruct (ui_other ui) as [[v|]|]; [now apply wild_named|exact wild_convert|constructor].
    - reflexivity.
  Qed.

  Lemma prefix_option {A} (f : A -> list call) g a : (forall b, a = Some b -> prefix_of (f b) (g b)) ->
    prefix_of (option_calls f a) (option_items g a).
  Proof. destruct a as [b|]; intros H; [now apply H|apply prefix_nil]. Qed.

  (** ** enum *)
  Lemma enum_ok e : Wd (item_words (IEnum e)) -> item_legible (IEnum e) -> prefix_of (enum_calls e) (enum_items e).
  Proof.
    intros F (LT & LI). cbn [item_words] in F. inversion F as [|? ? P F']; subst. clear F.
    apply Forall_app in F' as [F1 F]. inversion F as [|? ? D F']; subst. clear F.
    apply Forall_app in F' as [F3 F]. apply Forall_app in F as [F4 F5].
    unfold enum_calls, enum_items.
    set (head := (derive_calls (enum_derives (en_derive e)) ++ o "#" ++ brackets (w "repr" ++ parens (w "i32")) ++
      w "pub" ++ w "enum" ++ w (en_name e) ++ braces (commas (map (fun p => w (fst p) ++ o "=" ++ num "i32" (snd p)) (en_values e)))) : list call).
    replace (derive_calls _ ++ _) with (head ++ default_impl (en_name e) (w (en_default e)) ++
      option_calls (as_ref_calls (en_name e)) (en_as_ref e) ++ option_calls (try_from_calls (en_name e)) (en_try_from e) ++
      option_calls (indexer_calls (en_name e)) (en_indexer e)) by (unfold head; now rewrite <- !app_assoc).
    apply prefix_app with (i := [_]) (j := _ :: _).
    { apply prefix_one; [discriminate|]. intros r. unfold head. set (body := commas _).
      set (da := (derive_calls (enum_derives (en_derive e)) ++ o "#" ++ brackets (w "repr" ++ parens (w "i32"))) : list call).
      replace (T _) with (T da ++ [Leaf (LWord "pub"); Leaf (LWord "enum"); Leaf (LWord (en_name e)); Node BCurly (T body)])
        by (unfold da; tr; rewrite <- ?app_assoc; reflexivity).
      rewrite <- app_assoc. cbn [app].
      apply item_def with (get := get_enum) (ts := [Leaf (LWord (en_name e)); Node BCurly (T body)])
        (a := [derives (enum_derives (en_derive e)); Attr "repr" [MeWord "i32"]]); [discriminate| | |now left|].
      - eexists _, _. reflexivity.
      - intros u U. unfold da. rewrite T_app, <- app_assoc. apply derive_attrs; [destruct (en_derive e); repeat constructor|].
        apply repr_attrs. now apply attrs_none.
      - unfold get_enum. cbn [app]. rewrite name_word by exact P.
        rewrite (@Sep_list _ (get_variant n) _ (map (fun p => SVariant [] (fst p) None (Some (int_expr "i32" (snd p)))) (en_values e)));
          [reflexivity|].
        apply Sep_commas; [|intros [y z] _; discriminate]. intros [y z] u Hb A. cbn [fst snd].
        assert (Py : plain_word y = true) by (rewrite Forall_forall in F1; apply F1; apply in_map_iff; now exists (y, z)).
        tr. unfold get_variant. rewrite attrs_none by reflexivity. rewrite name_word, op_eq by exact Py.
        assert (Q : exists m, n = S (S (S m))) by (exists (n - 3); lia). destruct Q as [m ->].
        now rewrite expr_int. }
    apply prefix_app with (i := [_]).
    { apply default_ok; [exact P|]. tr. assert (Q : exists m, n = S (S m)) by (exists (n - 2); lia). destruct Q as [m ->].
      apply expr_operand; [|reflexivity]. now apply operand_path2. }
    apply prefix_app; [|apply prefix_app]; apply prefix_option; intros b Hb; rewrite Hb in *.
    - now apply as_ref_ok.
    - now apply try_from_ok.
    - now apply indexer_ok.
  Qed.

  (** ** union *)
  Lemma variant_parse v r : Wd (token_words (va_name v) ++ flat_map type_words (va_tys v)) -> is_word (va_name v) ->
    (forall t, In t (va_tys v) -> need t <= n) -> after r ->
    get_variant n (T (variant_calls v) ++ r) =
    Some (SVariant (attrs_of (va_attr v)) (token_name (va_name v)) (match va_tys v with [] => None | l => Some (map type_of l) end) None, r).
  Proof.
    intros F I L A. apply Forall_app in F as [F1 F2]. destruct (token_plain I F1) as (y & E & -> & P).
    unfold variant_calls. rewrite E, !T_app, <- !app_assoc. unfold get_variant. rewrite with_attrs by reflexivity.
    cbn [value_calls]. rewrite T_w, one_app. rewrite name_word by exact P. destruct (va_tys v) as [|t l] eqn:Et.
    - rewrite T_nil. cbn [app]. rewrite after_eq by exact A. destruct A as [->|[r' ->]]; reflexivity.
    - rewrite T_parens, one_app. rewrite (@Sep_list _ (get_type n) _ (map type_of (t :: l))); [reflexivity|].
      apply Sep_commas.
      + intros b u Hb B. apply type_ty; [exact (forall_flat F2 Hb)|now apply L|now apply after_stops].
      + intros b _ Eb. destruct b; discriminate Eb.
  Qed.
  Lemma repeat_units {A} (a : A) k : map (fun _ : unit => a) (repeat tt k) = repeat a k.
  Proof. induction k as [|k IH]; [reflexivity|]. cbn [repeat map]. now rewrite IH. Qed.
  Lemma default_union x d : plain_word x = true -> Wd (token_words (fst d)) -> is_word (fst d) ->
    get_expr n (T (dcolon (w x) (default_calls d))) =
    Some (let q := plain [x; token_name (fst d)] in
      match snd d with
      | O => SePath q
      | _ => SeCall q (repeat (SeCall (plain ["Default"; "default"]) []) (snd d))
      end, []).
  Proof.
    intros P F I. destruct d as [v k]. cbn [fst snd] in *. destruct (token_plain I F) as (y & -> & -> & Py).
    unfold default_calls. cbn [fst snd value_calls]. assert (Q : exists m, n = 6 + m) by (exists (n - 6); lia). destruct Q as [m ->].
    apply expr_operand; [|reflexivity]. destruct k as [|k].
    - tr. now apply operand_path2.
    - tr. apply operand_call2; [exact P|exact Py|].
      replace (repeat (dcolon (w "Default") (w "default" ++ parens [])) (S k)) with
        (map (fun _ : unit => dcolon (w "Default") (w "default" ++ parens [])) (repeat tt (S k)))
        by apply repeat_units.
      replace (repeat (SeCall (plain ["Default"; "default"]) []) (S k)) with
        (map (fun _ : unit => SeCall (plain ["Default"; "default"]) []) (repeat tt (S k)))
        by apply repeat_units.
      apply Sep_list, Sep_commas; [|discriminate]. intros b u Hb A. apply expr_operand; [|now apply after_no_as]. tr.
      now apply operand_call2.
  Qed.
  Lemma union_item_ok u : Wd (item_words (IUnion u)) -> item_legible (IUnion u) ->
    (forall v t, In v (un_variants u) -> In t (va_tys v) -> need t <= n) ->
    (forall ui d, un_union u = Some ui -> ui_disc ui = Some d -> S (need d) <= n) ->
    prefix_of (union_item_calls u) (union_items u).
  Proof.
    intros F (LV & LD & LI & LU) NV ND. cbn [item_words] in F. inversion F as [|? ? P F']; subst. clear F.
    apply Forall_app in F' as [F1 F]. apply Forall_app in F as [F2 F]. apply Forall_app in F as [F3 F4].
    unfold union_item_calls, union_items. pose proof (default_union P F2 LD) as DU. destruct (un_default u) as [dv dn]. cbn [fst snd] in *.
    set (head := (derive_calls (union_derives (un_derive u)) ++
      w "pub" ++ w "enum" ++ w (un_name u) ++ braces (commas (map variant_calls (un_variants u)))) : list call).
    replace (derive_calls _ ++ _) with (head ++ default_impl (un_name u) (default_calls (dv, dn)) ++
      option_calls (indexer_calls (un_name u)) (un_indexer u) ++ option_calls (union_calls (un_name u)) (un_union u))
      by (unfold head; now rewrite <- !app_assoc).
    apply prefix_app with (i := [_]) (j := _ :: _).
    { apply prefix_one; [discriminate|]. intros r. unfold head. set (body := commas _).
      set (da := derive_calls (union_derives (un_derive u))).
      replace (T _) with (T da ++ [Leaf (LWord "pub"); Leaf (LWord "enum"); Leaf (LWord (un_name u)); Node BCurly (T body)])
        by (tr; rewrite <- ?app_assoc; reflexivity).
      rewrite <- app_assoc. cbn [app].
      apply item_def with (get := get_enum) (ts := [Leaf (LWord (un_name u)); Node BCurly (T body)])
        (a := [derives (union_derives (un_derive u))]); [discriminate| | |now left|].
      - eexists _, _. reflexivity.
      - intros v U. unfold da. apply derive_attrs; [destruct (un_derive u); repeat constructor|now apply attrs_none].
      - unfold get_enum. cbn [app]. rewrite name_word by exact P.
        rewrite (@Sep_list _ (get_variant n) _ (map (fun v => SVariant (attrs_of (va_attr v)) (token_name (va_name v))
                      (match va_tys v with [] => None | l => Some (map type_of l) end) None) (un_variants u))); [reflexivity|].
        rewrite Forall_forall in LV. apply Sep_commas.
        + intros v w Hb A. apply variant_parse; [exact (forall_flat F1 Hb)|now apply LV|intros t; now apply NV|exact A].
        + intros v Hv Ev. specialize (LV v Hv). unfold variant_calls in Ev. destruct (va_attr v); try discriminate Ev.
          destruct (va_name v); [easy|discriminate Ev]. }
    apply prefix_app with (i := [_]).
    { apply default_ok; [exact P|]. exact DU. }
    apply prefix_app; apply prefix_option; intros b Hb; rewrite Hb in *.
    - now apply indexer_ok.
    - apply union_ok; [exact P|exact F4|exact LU|]. intros d. now apply ND.
  Qed.
End Items.
