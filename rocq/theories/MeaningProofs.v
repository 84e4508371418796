(** The meaning of the printed items is the one of GenSem.v. *)
From Verif Require Import Base RustTypes SpecTypes Nom Ast ParserModel SpecGrammar SpecParse CaseModel SpecCase RustAst GenModel SpecGen GenFacts
  SpecXdl GenSem SpecWire SpecRust SpecSyntax SpecMeaning.
Set Implicit Arguments.
Unset Strict Implicit.
Local Open Scope string_scope.
Local Open Scope list_scope.

(** ** Options and lists *)
Lemma find_in_app {A} (p : A -> bool) l l' : find p (l ++ l') = match find p l with Some a => Some a | None => find p l' end.
Proof. induction l as [|a l IH]; [easy|]. cbn. now destruct (p a). Qed.
Lemma obind_some {A B} (o : option A) (g : A -> option B) b : obind o g = Some b -> exists a, o = Some a /\ g a = Some b.
Proof. destruct o; [eauto|discriminate]. Qed.
Lemma guard_some {A} b (o : option A) a : guard b o = Some a -> b = true /\ o = Some a.
Proof. now destruct b. Qed.
Lemma map_some {A B} (g : A -> B) o b : option_map g o = Some b -> exists a, o = Some a /\ g a = b.
Proof. destruct o; cbn; [|discriminate]. intros [= <-]. eauto. Qed.
Lemma collect_map {A B C} (g : A -> B) (h : A -> option C) (k : B -> option C) l r :
  (forall a c, In a l -> h a = Some c -> k (g a) = Some c) -> omap h l = Some r -> collect k (map g l) = Some r.
Proof.
  revert r. induction l as [|a l IH]; intros r H; [easy|]. cbn. intros E. apply obind_some in E as (c & E & E').
  apply obind_some in E' as (cs & E' & [= <-]). rewrite (H a c (or_introl eq_refl) E). now rewrite (IH cs) by (try intros; auto with datatypes).
Qed.
Lemma collect_app {A B} (k : A -> option B) l l' : collect k (l ++ l') =
  match collect k l with Some r => match collect k l' with Some r' => Some (r ++ r') | None => None end | None => None end.
Proof.
  induction l as [|a l IH]; cbn; [now destruct (collect k l')|]. destruct (k a); [|easy]. rewrite IH. destruct (collect k l); [|easy]. now destruct (collect k l').
Qed.
Lemma omap_self {A} (l : list A) : omap Some l = Some l.
Proof. induction l as [|a l IH]; [easy|]. cbn. now rewrite IH. Qed.
Lemma arms_map {A K V} (key : spat -> option K) (val : sexpr -> option V) (g : A -> spat * sexpr) (h : A -> option (K * V)) l l' tail r d :
  (forall a b, In a l -> h a = Some b -> fst (g a) <> SpWild /\ key (fst (g a)) = Some (fst b) /\ val (snd (g a)) = Some (snd b)) ->
  omap h l = Some l' -> arms key val tail = Some (r, d) -> arms key val (map g l ++ tail) = Some (l' ++ r, d).
Proof.
  intros H O T. revert l' O H. induction l as [|a l IH]; intros l' O H; [injection O as <-; exact T|].
  cbn in O. apply obind_some in O as (b & E & O). apply obind_some in O as (bs & O & [= <-]).
  destruct (H a b (or_introl eq_refl) E) as (W & K1 & V1). cbn [map app]. destruct (g a) as [p e]. cbn [fst snd] in *. destruct b as [k v]. cbn [fst snd] in *.
  assert (R := IH bs O (fun a' b' i => H a' b' (or_intror i))). cbn [arms app]. destruct p; [now destruct W|..]; now rewrite K1, V1, R.
Qed.
Lemma is_type_ty1 x y : is_type x (ty1 y) = String.eqb x y.
Proof. easy. Qed.
Lemma place_position x l : place x l = position x l.
Proof. induction l as [|y l IH]; [easy|]. cbn. now rewrite IH. Qed.
Lemma has_assoc {B} x (l : list (string * B)) : has x (map fst l) = match assoc String.eqb x l with Some _ => true | None => false end.
Proof. induction l as [|[y b] l IH]; [easy|]. cbn. destruct (String.eqb x y); [easy|exact IH]. Qed.
Lemma i32_expr z : i32_value (int_expr "i32" z) = Some z.
Proof. unfold int_expr. destruct (z <? 0)%Z; cbn; [f_equal; lia|easy]. Qed.

(** ** Items *)
Definition head_item (i : type_item) : sitem :=
  match type_items i with a :: _ => a | [] => SiUse [] [] end.
Definition impl_for (x : string) (i : sitem) : Prop := match i with SiImpl _ t _ => is_type x t = true | _ => False end.
Lemma union_impl_for x ui : Forall (impl_for x) (union_of x ui).
Proof. unfold union_of. destruct (ui_disc ui); repeat constructor. apply String.eqb_refl. Qed.
Lemma item_shape i : exists rest, type_items i = head_item i :: rest /\ defines (head_item i) = Some (item_name i) /\ Forall (impl_for (item_name i)) rest.
Proof.
  destruct i as [x t|e|s|u]; cbn.
  - exists []. now repeat constructor.
  - eexists. split; [reflexivity|]. split; [reflexivity|]. constructor; [apply String.eqb_refl|].
    rewrite !Forall_app. repeat split; [destruct (en_as_ref e)|destruct (en_try_from e)|destruct (en_indexer e)]; repeat constructor; apply String.eqb_refl.
  - exists []. now repeat constructor.
  - unfold head_item, type_items, union_items. destruct (un_default u) as [v n]. eexists. split; [reflexivity|]. split; [reflexivity|].
    constructor; [apply String.eqb_refl|]. rewrite Forall_app. split; [destruct (un_indexer u); repeat constructor; apply String.eqb_refl|].
    destruct (un_union u); [apply union_impl_for|constructor].
Qed.
Lemma use_items_uses g : Forall (fun i => exists p l, i = SiUse p l) (use_items g).
Proof. destruct g; repeat constructor; eauto. Qed.
Lemma impl_defines x l : Forall (impl_for x) l -> forall y, find (fun i => match defines i with Some z => String.eqb y z | None => false end) l = None.
Proof. intros H y. induction H as [|i l h H IH]; [easy|]. destruct i; try easy. Qed.

Section File.
  Variable f : file.
  Let items := items_of f.

  Lemma find_types (p : sitem -> bool) : (forall a b, p (SiUse a b) = false) -> (forall a b c d, p (SiConst a b c d) = false) ->
    find p items = find p (flat_map type_items (fi_types f)).
  Proof.
    intros U C. unfold items, items_of. cbn [find]. rewrite U. rewrite !find_in_app.
    assert (A : find p (flat_map use_items (fi_uses f)) = None).
    { induction (fi_uses f) as [|g l IH]; [easy|]. cbn [flat_map]. rewrite find_in_app, IH. destruct g; cbn; rewrite ?U; easy. }
    assert (B : find p (map const_item_of (fi_consts f)) = None).
    { induction (fi_consts f) as [|c l IH]; [easy|]. cbn [map find]. unfold const_item_of at 1. now rewrite C. }
    now rewrite A, B.
  Qed.
  Lemma definition_is x : definition_of items x = option_map head_item (find_item f x).
  Proof.
    unfold definition_of, find_item. rewrite find_types by easy. induction (fi_types f) as [|i l IH]; [easy|]. cbn [flat_map find].
    destruct (item_shape i) as (rest & -> & D & R). cbn [app find]. rewrite D, String.eqb_sym. destruct (String.eqb (item_name i) x); [easy|].
    rewrite find_in_app, (impl_defines R). exact IH.
  Qed.
  (** an impl for the item that is called [x] *)
  Lemma impl_found (p : sitem -> bool) x i a : find_item f x = Some i -> (forall s, p s = true -> impl_for x s) ->
    find p (type_items i) = Some a -> find p items = Some a.
  Proof.
    intros F P A. rewrite find_types.
    2: { intros u v. destruct (p (SiUse u v)) eqn:E; [now apply P in E|easy]. }
    2: { intros u v w z. destruct (p (SiConst u v w z)) eqn:E; [now apply P in E|easy]. }
    unfold find_item in F. induction (fi_types f) as [|j l IH]; [easy|]. cbn [flat_map]. rewrite find_in_app. cbn [find] in F.
    destruct (String.eqb (item_name j) x) eqn:E.
    - injection F as ->. now rewrite A.
    - enough (N : find p (type_items j) = None) by (rewrite N; now apply IH).
      destruct (find p (type_items j)) as [s|] eqn:S; [|easy]. exfalso. apply find_some in S as [S T]. apply P in T.
      destruct (item_shape j) as (rest & R & D & HR). rewrite R in S. destruct S as [<-|S].
      + destruct (head_item j); easy.
      + rewrite Forall_forall in HR. specialize (HR s S). destruct s as [| | | | |tr t ms]; try easy. cbn in T, HR. unfold is_type in *.
        destruct (type_name t) as [y|]; [|easy]. apply String.eqb_eq in T. apply String.eqb_eq in HR. apply String.eqb_neq in E. congruence.
  Qed.
  Lemma impl_is tr x i t ms y : find_item f x = Some i ->
    find (fun i => match i with SiImpl t s _ => tr t && is_type x s | _ => false end) (type_items i) = Some (SiImpl t y ms) ->
    impl_of items tr x = Some (t, ms).
  Proof.
    intros F A. unfold impl_of. rewrite (@impl_found _ x i (SiImpl t y ms) F); [easy| |exact A].
    intros [| | | | |t' s ms']; try easy. cbn. now intros H%andb_true_iff.
  Qed.

  (** ** Constants *)
  Lemma value_more e : forall n m r, value items n e = Some r -> (n <= m)%nat -> value items m e = Some r.
  Proof.
    intros n. revert e. induction n as [|n IH]; intros e m r H L; [easy|]. destruct m as [|m]; [lia|]. cbn [value] in *.
    destruct e as [z s|b|p|e|e|p l|x l|e l|e t]; try easy.
    - destruct (one_name p) as [x|]; [|easy]. destruct (constant items x) as [[t e]|]; [|easy].
      destruct (value items n e) as [[s z]|] eqn:V; [|easy]. now rewrite (IH _ _ _ V) by lia.
    - destruct (value items n e) as [[s z]|] eqn:V; [|easy]. now rewrite (IH _ _ _ V) by lia.
    - destruct (value items n e) as [[s z]|] eqn:V; [|easy]. now rewrite (IH _ _ _ V) by lia.
  Qed.
  Definition const_word (w : bool) : string := if w then "u64" else "u32".
  Lemma constant_is x : constant items x =
    option_map (fun c => (ty1 (const_word (co_wide c)), value_expr (const_word (co_wide c)) (co_value c)))
      (find (fun c => String.eqb (co_name c) x) (fi_consts f)).
  Proof.
    unfold constant, items, items_of. cbn [find]. rewrite !find_in_app.
    set (p := fun i => match i with SiConst _ y _ _ => String.eqb x y | _ => false end).
    assert (A : find p (flat_map use_items (fi_uses f)) = None).
    { induction (fi_uses f) as [|g l IH]; [easy|]. cbn [flat_map]. rewrite find_in_app, IH. now destruct g. }
    assert (B : find p (flat_map type_items (fi_types f)) = None).
    { induction (fi_types f) as [|i l IH]; [easy|]. cbn [flat_map]. rewrite find_in_app, IH.
      destruct (find p (type_items i)) as [s|] eqn:S; [|easy]. exfalso. apply find_some in S as [S T]. destruct (item_shape i) as (rest & R & D & HR).
      rewrite R in S. destruct S as [<-|S]; [destruct (head_item i); easy|]. rewrite Forall_forall in HR. specialize (HR s S). now destruct s. }
    rewrite A, B. induction (fi_consts f) as [|c l IH]; [easy|]. cbn [map find]. unfold const_item_of at 1, p at 1. rewrite String.eqb_sym.
    destruct (String.eqb (co_name c) x); [easy|]. exact IH.
  Qed.
  Lemma value_int n s z : value items (S (S n)) (int_expr s z) = Some (s, z).
  Proof. unfold int_expr. destruct (z <? 0)%Z; cbn [value]; [|easy]. do 2 f_equal. lia. Qed.
  Lemma value_cast n e s z : value items n e = Some (s, z) -> (0 <= z < 2 ^ 64)%Z -> value items (S n) (SeCast e (ty1 "usize")) = Some ("usize", z).
  Proof. intros H L. cbn [value]. rewrite H. cbn [is_type type_name ty1 plain one_name]. now rewrite Z.mod_small. Qed.
  Lemma const_value n : forall x w z, const_sem f n x = Some (w, z) -> value items (S (S n)) (SePath (plain [x])) = Some (const_word w, z).
  Proof.
    induction n as [|n IH]; intros x w z H; [easy|]. cbn [const_sem] in H. remember (S (S n)) as k. cbn [value plain one_name]. rewrite constant_is.
    destruct (find _ (fi_consts f)) as [c|]; [|easy]. cbn [option_map]. destruct (co_value c) as [y|y]; cbn [value_expr].
    - injection H as <- <-. subst k. rewrite value_int, is_type_ty1. now rewrite String.eqb_refl.
    - destruct (const_sem f n y) as [[w' z']|] eqn:C; [|easy]. destruct (Bool.eqb w' (co_wide c)) eqn:W; [|easy]. injection H as -> ->.
      apply Bool.eqb_prop in W as <-. subst k. rewrite (IH _ _ _ C), is_type_ty1. now rewrite String.eqb_refl.
  Qed.
  Lemma items_long : (length (fi_consts f) + 1 <= length items)%nat.
  Proof. unfold items, items_of. cbn [length]. rewrite !app_length, map_length. lia. Qed.
  Lemma length_is len (cast : bool) k : array_len f len cast = Some k ->
    length_of items (let e := value_expr "usize" len in if cast then SeCast e (ty1 "usize") else e) = Some k.
  Proof.
    unfold array_len. intros H. apply obind_some in H as (z & H & G). apply guard_some in G as [G [= <-]]. unfold length_of. pose proof items_long as L.
    assert (V : value items (length items + 3) (let e := value_expr "usize" len in if cast then SeCast e (ty1 "usize") else e) = Some ("usize", z)).
    { destruct len as [y|x].
      - injection H as ->. cbn [value_expr]. destruct cast.
        + apply value_more with (n := 3%nat); [|lia]. cbn zeta. apply value_cast with (s := "usize"); [apply value_int|lia].
        + apply value_more with (n := 2%nat); [apply value_int|lia].
      - apply guard_some in H as [-> H]. apply map_some in H as ([w z'] & H & E). cbn in E. subst z'. apply const_value in H.
        apply value_more with (n := S (S (S (S (length (fi_consts f)))))); [|lia]. cbn zeta. cbn [value_expr].
        apply (value_cast H). lia. }
    cbn zeta in V |- *. rewrite V. now rewrite G.
  Qed.

  (** ** Types *)
  Hypothesis NT : forall i, In i (fi_types f) -> ~ In (item_name i) ("Vec" :: "Option" :: "Box" :: map fst builtins).
  Lemma undefined x : In x ("Vec" :: "Option" :: "Box" :: map fst builtins) -> definition_of items x = None.
  Proof.
    intros H. rewrite definition_is. unfold find_item. destruct (find _ (fi_types f)) as [i|] eqn:F; [|easy]. apply find_some in F as [F E].
    apply String.eqb_eq in E as <-. now destruct (NT F).
  Qed.
  Ltac listed := cbn [In map fst builtins]; tauto.
  Lemma builtin x t : assoc String.eqb x builtins = Some t -> In x (map fst builtins) -> type_meaning items (ty1 x) = Some t.
  Proof. intros H I. cbn -[definition_of assoc builtins]. rewrite undefined; [exact H|]. do 3 right. exact I. Qed.
  Lemma type_is t : forall T, ty_sem f t = Some T -> type_meaning items (type_of t) = Some T.
  Proof.
    induction t as [s k| | | | |x|t IH len cast|t IH| |t IH|t IH|]; intros T H; cbn [type_of ty_sem] in *.
    - injection H as <-. destruct s, k; (apply builtin; [reflexivity|listed]).
    - injection H as <-. apply builtin; [reflexivity|listed].
    - injection H as <-. apply builtin; [reflexivity|listed].
    - injection H as <-. apply builtin; [reflexivity|listed].
    - injection H as <-. apply builtin; [reflexivity|listed].
    - cbn -[definition_of assoc builtins]. rewrite definition_is. destruct (find_item f x); [exact H|easy].
    - apply obind_some in H as (T' & H & H'). apply obind_some in H' as (k & A & [= <-]). apply length_is in A. cbn zeta in A.
      cbn [type_meaning]. now rewrite (IH _ H), A.
    - apply map_some in H as (T' & H & <-). cbn [type_meaning ty1_of plain one_name]. rewrite undefined by listed. now rewrite (IH _ H).
    - injection H as <-. cbn [type_meaning ty1_of plain one_name]. rewrite undefined by listed. reflexivity.
    - apply map_some in H as (T' & H & <-). cbn [type_meaning ty1_of plain one_name]. rewrite undefined by listed. now rewrite (IH _ H).
    - apply map_some in H as (T' & H & <-). cbn [type_meaning ty1_of plain one_name]. rewrite undefined by listed. now rewrite (IH _ H).
    - injection H as <-. reflexivity.
  Qed.
  Lemma types_are ts Ts : omap (ty_sem f) ts = Some Ts -> collect (type_meaning items) (map type_of ts) = Some Ts.
  Proof. apply collect_map. intros a c _. apply type_is. Qed.

  (** ** Enums *)
  Lemma find_enum_name x e : find_enum f x = Some e -> find_item f x = Some (IEnum e) /\ x = en_name e.
  Proof.
    unfold find_enum. destruct (find_item f x) as [[| e'| |]|] eqn:F; try easy. intros [= ->]. split; [easy|]. unfold find_item in F.
    apply find_some in F as [_ F]. now apply String.eqb_eq in F.
  Qed.
  Lemma unit_names_of l : unit_names (map (fun p : string * Z => SVariant [] (fst p) None (Some (int_expr "i32" (snd p)))) l) = Some (map fst l).
  Proof. unfold unit_names. induction l as [|p l IH]; [easy|]. cbn in *. now rewrite IH. Qed.
  Lemma enum_variants_are x e : find_enum f x = Some e -> enum_variants items x = Some (enum_names e).
  Proof. intros F. apply find_enum_name in F as [F ->]. unfold enum_variants. rewrite definition_is, F. cbn. apply unit_names_of. Qed.

  Lemma signed_is x e T : find_enum f x = Some e -> signed_sem e = Some T -> signed32 items x = Some T.
  Proof.
    intros F H. pose proof (enum_variants_are F) as V. apply find_enum_name in F as [F ->]. unfold signed_sem in H.
    destruct (en_as_ref e) as [asr|] eqn:A; [|easy]. destruct (en_try_from e) as [tf|] eqn:B; [|easy].
    apply obind_some in H as (zs & HZ & H). apply obind_some in H as (arms' & HA & H). apply guard_some in H as [_ [= <-]].
    unfold signed32. rewrite V.
    rewrite (@impl_is _ (en_name e) (IEnum e) (ty1_of "AsRef" [ty1 "i32"])
      [MbFn "as_ref" [PaSelf] (SyRef (Some "static") (ty1 "i32"))
       (matching "self" (map (fun p => (SpPath (plain [en_name e; fst p]), SeRef (int_expr "i32" (snd p)))) asr))] (ty1 (en_name e)) F).
    2: { cbn. rewrite A. cbn. now rewrite String.eqb_refl. }
    cbn [by_self method find String.eqb Ascii.eqb Bool.eqb matching plain one_name].
    rewrite <- (app_nil_r (map _ asr)). rewrite (@arms_map _ _ _ _ _ _ Some asr asr [] [] None); [| |apply omap_self|easy].
    2: { intros a b _ [= <-]. cbn. rewrite String.eqb_refl, i32_expr. easy. }
    rewrite app_nil_r. rewrite <- (map_id (enum_names e)) at 1. rewrite (@collect_map _ _ _ (fun x => x) (fun x => assoc String.eqb x asr) _ (enum_names e) zs); [|auto|exact HZ].
    rewrite (@impl_is _ (en_name e) (IEnum e) (ty1_of "TryFrom" [ty1 "i32"])
      [error_type false; MbFn "try_from" [PaTyped "v" (ty1 "i32")] (ty1_of "Result" [ty1 "Self"; SyPath (error_path false []) []])
       (matching "v" (map (fun p => (SpInt (fst p) "i32", SeCall (plain ["Ok"]) [SePath (plain [en_name e; snd p])])) tf ++ [(SpWild, convert false)]))] (ty1 (en_name e)) F).
    2: { cbn. rewrite A, B. cbn. now rewrite String.eqb_refl. }
    cbn [by_i32 method find String.eqb Ascii.eqb Bool.eqb matching plain one_name error_type is_type type_name ty1].
    rewrite (@arms_map _ _ _ _ _ _ (fun p => option_map (Datatypes.pair (fst p)) (position (snd p) (enum_names e))) tf arms' _ [] (Some (convert false))); [| |exact HA|easy].
    2: { intros a b _ Hb. apply map_some in Hb as (k & Hk & <-). split; [easy|]. split; [easy|]. unfold ok_of. cbn [fst snd result variant_index plain one_name String.eqb Ascii.eqb Bool.eqb two_names]. now rewrite String.eqb_refl, place_position, Hk. }
    now rewrite app_nil_r.
  Qed.
  Lemma field_is a t T : field_sem f a t = Some T -> field_meaning items (attrs_of a) (type_of t) = Some T.
  Proof.
    destruct a; cbn [field_sem attrs_of].
    - apply type_is.
    - destruct t as [| | | | | |[[] []| | | | | | | | | | |] len cast| | | | |]; try easy. intros H. apply map_some in H as (k & H & <-). apply length_is in H. cbn zeta in H.
      assert (B : is_u8 items (type_of (YInt false W8)) = true) by (unfold is_u8; now rewrite (type_is (t := YInt false W8) eq_refl)).
      cbn [field_meaning]. change (type_of (YArray (YInt false W8) len cast)) with
        (SyArray (type_of (YInt false W8)) (let e := value_expr "usize" len in if cast then SeCast e (ty1 "usize") else e)).
      cbn [String.eqb Ascii.eqb Bool.eqb andb]. rewrite B. cbn zeta. now rewrite H.
    - destruct t as [| | | | | | |[[] []| | | | | | | | | | |]| | | |]; try easy. intros [= <-]. cbn [field_meaning].
      rewrite (type_is (t := YVec (YInt false W8)) eq_refl). reflexivity.
    - destruct t as [| | | | |x| | | | | |]; try easy. intros H. apply obind_some in H as (e & F & H). cbn [field_meaning type_of type_name ty1 plain one_name String.eqb Ascii.eqb Bool.eqb andb].
      exact (signed_is F H).
  Qed.

  (** ** XdrIndexer *)
  Lemma indexer_is x i vs ix svs T : find_item f x = Some i ->
    find (fun i => match i with SiImpl t s _ => is_type "XdrIndexer" t && is_type x s | _ => false end) (type_items i) = Some (indexer_of x ix) ->
    collect (plain_variant items) svs = Some vs -> indexer_sem vs ix = Some T -> indexer items x svs = Some T.
  Proof.
    intros F FI V H. unfold indexer_sem in H. apply obind_some in H as (names & HN & H). apply obind_some in H as (index & HI & H).
    apply obind_some in H as (other & HO & H). apply guard_some in H as [G [= <-]].
    apply andb_true_iff in G as [G C]. unfold indexer. rewrite V. rewrite (@impl_is _ x i _ _ _ F FI).
    cbn [by_self method find String.eqb Ascii.eqb Bool.eqb matching plain one_name error_type].
    set (tail := if ix_unimplemented ix then _ else _).
    set (h := fun p => match p with (v, paren, z) => obind (token_id v) (fun x => obind (assoc String.eqb x vs) (fun ts =>
             guard (Nat.eqb (length ts) (if paren : bool then 1 else 0)) (Some (x, z)))) end) in HI.
    rewrite (@arms_map _ _ _ _ _ _ h (ix_index ix) index tail [] (if ix_unimplemented ix then Some (SeMacro "unimplemented" []) else None));
      [| |exact HI|unfold tail; now destruct (ix_unimplemented ix)].
    2: { intros [[v paren] z] b _ Hb. cbn in Hb. apply obind_some in Hb as (y & Hy & Hb). apply obind_some in Hb as (ts & Ht & Hb). apply guard_some in Hb as [Hb [= <-]].
         destruct v as [|v]; [easy|]. injection Hy as ->. cbn [fst snd token_name]. split; [now destruct paren|]. split; [|apply i32_expr].
         destruct paren; cbn; rewrite Ht, String.eqb_refl, Hb; easy. }
    rewrite app_nil_r.
    assert (K : match (if ix_unimplemented ix then Some (SeMacro "unimplemented" []) else None) with
              | Some e => match result stringified e with Some DPanic => Some tt | _ => None end
              | None => if forallb (fun v => has (fst v) (map fst index)) vs then Some tt else None
              end = Some tt).
    { destruct (ix_unimplemented ix); [easy|]. cbn in C. rewrite (forallb_forall _ vs) in C.
      rewrite (proj2 (forallb_forall (fun v => has (fst v) (map fst index)) vs)); [easy|]. intros v Hv. specialize (C v Hv). rewrite has_assoc. exact C. }
    rewrite K. cbn [by_i32 method find String.eqb Ascii.eqb Bool.eqb matching plain one_name error_type is_type type_name ty1].
    rewrite (@arms_map _ _ _ _ _ _ (fun p => option_map (Datatypes.pair (fst p)) (token_id (snd p))) (ix_names ix) names _ []
      (Some (match ix_other ix with Some v => named (token_name v) | None => convert true end))); [| |exact HN|easy].
    2: { intros [z v] b _ Hb. apply map_some in Hb as (y & Hy & <-). destruct v as [|v]; [easy|]. injection Hy as ->. easy. }
    rewrite app_nil_r. destruct (ix_other ix) as [v|].
    - apply map_some in HO as (y & Hy & <-). destruct v as [|v]; [easy|]. injection Hy as ->. reflexivity.
    - injection HO as <-. reflexivity.
  Qed.

  (** ** XdrUnion *)
  Lemma rty_same a : forall b, rty_eqb a b = true -> a = b.
  Proof.
    induction a as [s k| | | | |x|t IH len cast|t IH| |t IH|t IH|]; intros [s' k'| | | | |x'|t' len' cast'|t'| |t'|t'|]; cbn; try easy; intros H.
    - apply andb_true_iff in H as [H K]. apply Bool.eqb_prop in H as ->. f_equal. now destruct k, k'.
    - apply String.eqb_eq in H as ->. easy.
    - apply andb_true_iff in H as [H K]. apply andb_true_iff in H as [H J]. apply IH in H as ->. apply Bool.eqb_prop in J as ->. f_equal.
      destruct len, len'; try easy; [now apply Z.eqb_eq in K as ->|now apply String.eqb_eq in K as ->].
    - now rewrite (IH _ H).
    - now rewrite (IH _ H).
    - now rewrite (IH _ H).
  Qed.
  Lemma pat_is disc dt p v : ty_sem f disc = Some dt -> pat_sem f disc p = Some v ->
    (exists w, type_of disc = ty1 w) /\ value_key items dt (pattern_of p) = Some v.
  Proof.
    destruct p as [b|z|t x]; cbn [pat_sem]; destruct disc as [[] []| | | | |u| | | | | |]; try easy; intros D.
    - intros [= <-]. injection D as <-. split; [now exists "bool"|easy].
    - intros [= <-]. injection D as <-. split; [now exists "u32"|easy].
    - intros H. apply guard_some in H as [E H]. apply String.eqb_eq in E as ->. apply obind_some in H as (e & F & H). apply map_some in H as (k & H & <-).
      cbn [ty_sem] in D. destruct (find_item f u); [|easy]. injection D as <-.
      split; [now exists u|]. cbn [pattern_of value_key plain two_names]. rewrite String.eqb_refl, (enum_variants_are F), place_position, H. easy.
  Qed.
  Definition svariant_of (v : variant) : svariant :=
    SVariant (attrs_of (va_attr v)) (token_name (va_name v)) (match va_tys v with [] => None | l => Some (map type_of l) end) None.
  Lemma union_variant_is disc w v r : type_of disc = ty1 w -> union_variant_sem f disc v = Some r -> union_variant items w (svariant_of v) = Some r.
  Proof.
    intros W H. unfold union_variant_sem in H. apply obind_some in H as (x & Hx & H). destruct v as [a n ts]. cbn [va_attr va_tys va_name] in *.
    destruct n as [|n]; [easy|]. injection Hx as ->. destruct a; try easy. destruct ts as [|t ts]; [easy|].
    apply guard_some in H as [E H]. apply rty_same in E as ->. apply map_some in H as (Ts & H & <-).
    unfold union_variant, svariant_of. cbn [va_attr va_tys va_name sv_attrs sv_fields sv_name attrs_of map token_name]. rewrite W, is_type_ty1, String.eqb_refl.
    now rewrite (types_are H).
  Qed.
  Lemma is_pt_names disc b l names :
    omap (fun p => obind (pat_sem f disc (fst p)) (fun v => option_map (Datatypes.pair v) (token_id (snd p)))) l = Some names ->
    existsb (is_pt b) l = has_bool b names.
  Proof.
    revert names. induction l as [|[p v] l IH]; intros names H; [now injection H as <-|]. cbn in H. apply obind_some in H as (q & H & H').
    apply obind_some in H' as (qs & H' & [= <-]). apply obind_some in H as (y & P & H). apply map_some in H as (n & _ & <-).
    cbn. rewrite (IH _ H'). f_equal. unfold is_pt. cbn. destruct p as [c|z|t x]; destruct disc as [[] []| | | | |u| | | | | |]; try easy; cbn in P.
    - now injection P as <-.
    - now injection P as <-.
    - apply guard_some in P as [_ P]. apply obind_some in P as (e & _ & P). apply map_some in P as (k & _ & <-). easy.
  Qed.
  Lemma union_is x i ui vs T : find_item f x = Some i ->
    (forall t ms, union_of x ui = [SiImpl t (ty1 x) ms] -> 
      find (fun i => match i with SiImpl t s _ => match applied "XdrUnion" t with Some _ => true | None => false end && is_type x s | _ => false end) (type_items i)
        = Some (SiImpl t (ty1 x) ms)) ->
    union_impl_sem f vs ui = Some T -> union items x (map svariant_of vs) = Some T.
  Proof.
    intros F FI H. unfold union_impl_sem in H. apply obind_some in H as (disc & HD & H). apply obind_some in H as (dt & HT & H).
    apply obind_some in H as (variants & HV & H). apply obind_some in H as (names & HN & H). apply obind_some in H as (other & HO & H).
    apply guard_some in H as [G [= <-]].
    assert (W : exists w, type_of disc = ty1 w).
    { destruct (ui_names ui) as [|p l]; [injection HN as <-; easy|]. cbn in HN. apply obind_some in HN as (q & Q & _). apply obind_some in Q as (v & Q & _).
      now apply (pat_is HT) in Q as [Q _]. }
    destruct W as [w W]. unfold union_of in FI. rewrite HD, W in FI. specialize (FI _ _ eq_refl). unfold union.
    rewrite (@impl_is _ x i _ _ _ F FI). cbn [applied ty1_of plain one_name String.eqb Ascii.eqb Bool.eqb type_name ty1].
    change (SyPath (Path false [w]) []) with (ty1 w). rewrite <- W, (type_is HT).
    rewrite (@collect_map _ _ _ svariant_of (union_variant_sem f disc) _ vs variants); [| |exact HV].
    2: { intros a c _. now apply union_variant_is. }
    cbn [method find String.eqb Ascii.eqb Bool.eqb matching plain one_name error_type]. rewrite W, is_type_ty1, String.eqb_refl.
    set (e := match ui_other ui with Some (Some v) => Some (named (token_name v)) | Some None => Some (convert true) | None => None end).
    rewrite (@arms_map _ _ _ _ _ _ (fun p => obind (pat_sem f disc (fst p)) (fun v => option_map (Datatypes.pair v) (token_id (snd p)))) (ui_names ui) names _ [] e);
      [| |exact HN|unfold e; destruct (ui_other ui) as [[]|]; reflexivity].
    2: { intros [p v] b _ Hb. apply obind_some in Hb as (y & P & Hb). apply map_some in Hb as (n & Hn & <-). cbn [fst snd] in *. destruct v as [|v]; [easy|]. injection Hn as ->.
         apply (pat_is HT) in P as [_ P]. split; [now destruct p|]. split; [exact P|reflexivity]. }
    rewrite app_nil_r. unfold e. clear e. destruct (ui_other ui) as [[v|]|].
    - apply map_some in HO as (n & Hn & <-). destruct v as [|v]; [easy|]. injection Hn as ->. reflexivity.
    - injection HO as <-. reflexivity.
    - apply guard_some in HO as [B [= <-]]. rewrite !(is_pt_names _ HN) in B. now rewrite B.
  Qed.

  (** ** Items of the file *)
  Hypothesis ND : NoDup (map item_name (fi_types f)).
  Hypothesis IMP :
    (forall e, In (IEnum e) (fi_types f) -> en_indexer e <> None -> In UseIndexer (fi_uses f) /\ In UseSerializeTuple (fi_uses f)) /\
    (forall u, In (IUnion u) (fi_types f) ->
       (un_indexer u <> None -> In UseIndexer (fi_uses f) /\ In UseSerializeTuple (fi_uses f)) /\
       (un_union u <> None -> In UseUnion (fi_uses f) /\ In UseSerializeTuple (fi_uses f))).
  Lemma found_self i : In i (fi_types f) -> find_item f (item_name i) = Some i.
  Proof.
    unfold find_item. generalize ND. clear. induction (fi_types f) as [|j l IH]; [easy|]. intros N. cbn [map] in N. inversion_clear N as [|? ? N' D]. cbn [find].
    intros [->|H]; [now rewrite String.eqb_refl|]. destruct (String.eqb (item_name j) (item_name i)) eqn:E; [|now apply IH].
    apply String.eqb_eq in E. destruct N'. rewrite E. now apply in_map.
  Qed.
  Lemma imported_by g from x xs : In g (fi_uses f) -> In (SiUse from xs) (use_items g) -> has x xs = true -> imported items from x = true.
  Proof.
    intros G U X. unfold imported. apply existsb_exists. exists (SiUse from xs). split.
    - unfold items, items_of. right. apply in_or_app. left. apply in_flat_map. eauto.
    - rewrite X, andb_true_r. clear. induction from as [|y l IH]; [easy|]. cbn. now rewrite String.eqb_refl.
  Qed.
  Lemma serde_here : serde_in_scope items = true.
  Proof. reflexivity. Qed.
  Lemma indexer_here : In UseIndexer (fi_uses f) -> In UseSerializeTuple (fi_uses f) ->
    imported items ["serde_xdr_derive"] "XdrIndexer" && imported items ["serde_xdr"] "XdrIndexer" && imported items ["serde"; "ser"] "SerializeTuple" = true.
  Proof.
    intros H K. rewrite (@imported_by UseIndexer _ _ ["XdrIndexer"] H) by (first [reflexivity|cbn; tauto]). rewrite (@imported_by UseIndexer _ _ ["XdrIndexer"] H) by (first [reflexivity|cbn; tauto]).
    now rewrite (@imported_by UseSerializeTuple _ _ ["SerializeTuple"] K) by (first [reflexivity|cbn; tauto]).
  Qed.
  Lemma union_here : In UseUnion (fi_uses f) -> In UseSerializeTuple (fi_uses f) ->
    imported items ["serde_xdr_derive"] "XdrUnion" && imported items ["serde_xdr"] "XdrUnion" && imported items ["serde"; "ser"] "SerializeTuple" = true.
  Proof.
    intros H K. rewrite (@imported_by UseUnion _ _ ["XdrUnion"] H) by (first [reflexivity|cbn; tauto]). rewrite (@imported_by UseUnion _ _ ["XdrUnion"] H) by (first [reflexivity|cbn; tauto]).
    now rewrite (@imported_by UseSerializeTuple _ _ ["SerializeTuple"] K) by (first [reflexivity|cbn; tauto]).
  Qed.
  Lemma impls_mean x l : Forall (impl_for x) l -> exists r, collect (item_meaning items) l = Some r /\ concat r = [].
  Proof.
    intros H. induction H as [|i l h H (r & IH & E)]; [now exists []|]. destruct i; try easy. exists ([] :: r). cbn. now rewrite IH.
  Qed.
  Lemma serde_variant_is v r : serde_variant_sem f v = Some r -> variant_meaning items (svariant_of v) = Some r.
  Proof.
    unfold serde_variant_sem, variant_meaning, svariant_of. intros H. apply obind_some in H as (x & Hx & H). destruct v as [a n ts]. cbn [va_attr va_tys va_name] in *.
    destruct n as [|n]; [easy|]. injection Hx as ->. cbn [sv_attrs sv_fields sv_name token_name].
    destruct ts as [|t [|t' ts]].
    - now destruct a.
    - apply map_some in H as (T & H & <-). cbn [map]. now rewrite (field_is H).
    - easy.
  Qed.
  Lemma head_means i T : In i (fi_types f) -> item_sem f i = Some T -> item_meaning items (head_item i) = Some [(item_name i, T)].
  Proof.
    intros I H. pose proof (found_self I) as F. destruct i as [x t|e|s|u]; cbn [item_sem item_name] in *.
    - cbn -[type_meaning]. now rewrite (type_is H).
    - unfold enum_sem in H. apply guard_some in H as [_ H]. unfold head_item. cbn [type_items enum_items app item_meaning].
      destruct (en_derive e) eqn:D; [| |easy].
      + assert (T = TEnum (map (fun x => (x, VUnit)) (enum_names e))) as ->.
        { destruct (en_indexer e); [easy|]. destruct (en_as_ref e); [apply obind_some in H as (? & _ & H)|]; now injection H as <-. }
        unfold derives_serde. rewrite serde_here. cbn [derived derives flat_map sa_name sa_args String.eqb Ascii.eqb Bool.eqb map app has existsb orb andb].
        enough (collect (variant_meaning items) (map (fun p : string * Z => SVariant [] (fst p) None (Some (int_expr "i32" (snd p)))) (en_values e))
          = Some (map (fun x => (x, VUnit)) (enum_names e))) as -> by easy.
        unfold enum_names. rewrite map_map. apply collect_map with (h := fun p => Some (fst p, VUnit)).
        * intros a c _ [= <-]. easy.
        * clear. induction (en_values e) as [|p l IH]; [easy|]. cbn. now rewrite IH.
      + destruct (en_indexer e) as [ix|] eqn:X; [|easy]. destruct (en_as_ref e) eqn:A; [easy|].
        unfold derives_serde, derives_xdr. cbn [derived derives flat_map sa_name sa_args String.eqb Ascii.eqb Bool.eqb map app has existsb orb andb].
        destruct (proj1 IMP e I) as [K1 K2]; [congruence|]. rewrite (indexer_here K1 K2).
        rewrite (@indexer_is (en_name e) (IEnum e) (map (fun x => (x, [])) (enum_names e)) ix _ T F); [easy| | |exact H].
        * cbn. rewrite A, X. destruct (en_try_from e); cbn; now rewrite String.eqb_refl.
        * unfold enum_names. rewrite map_map. apply collect_map with (h := fun p => Some (fst p, [])).
          -- intros a c _ [= <-]. easy.
          -- clear. induction (en_values e) as [|p l IH]; [easy|]. cbn. now rewrite IH.
    - unfold struct_sem in H. apply map_some in H as (fs & H & <-). unfold head_item. cbn [type_items struct_items item_meaning].
      unfold derives_serde. rewrite serde_here. cbn [derived derives flat_map sa_name sa_args String.eqb Ascii.eqb Bool.eqb map app has existsb orb andb].
      rewrite (@collect_map _ _ _ _ (fun fd => option_map (Datatypes.pair (rident_name (fd_name fd))) (field_sem f (fd_attr fd) (fd_ty fd))) _ (st_fields s) fs); [easy| |exact H].
      intros a c _ Hc. apply map_some in Hc as (t & Hc & <-). cbn [sf_attrs sf_type sf_name]. now rewrite (field_is Hc).
    - unfold union_sem in H. apply guard_some in H as [_ H]. unfold head_item. cbn [type_items]. unfold union_items.
      destruct (un_default u) as [dv dn]. cbn [app item_meaning]. change (map _ (un_variants u)) with (map svariant_of (un_variants u)).
      destruct (proj2 IMP u I) as [IX IU]. destruct (un_derive u) eqn:D.
      + destruct (un_indexer u); [easy|]. destruct (un_union u); [easy|]. apply map_some in H as (vs & H & <-).
        unfold derives_serde. rewrite serde_here. cbn [derived derives flat_map sa_name sa_args String.eqb Ascii.eqb Bool.eqb map app has existsb orb andb].
        rewrite (@collect_map _ _ _ svariant_of (serde_variant_sem f) _ (un_variants u) vs); [easy| |exact H]. intros a c _. apply serde_variant_is.
      + destruct (un_indexer u) as [ix|] eqn:X; [|easy]. destruct (un_union u) eqn:U; [easy|]. apply obind_some in H as (vs & HV & H).
        unfold derives_serde, derives_xdr. cbn [derived derives flat_map sa_name sa_args String.eqb Ascii.eqb Bool.eqb map app has existsb orb andb].
        destruct IX as [K1 K2]; [easy|]. rewrite (indexer_here K1 K2).
        rewrite (@indexer_is (un_name u) (IUnion u) vs ix _ T F); [easy| | |exact H].
        * cbn. unfold union_items. destruct (un_default u). rewrite X. cbn. now rewrite String.eqb_refl.
        * apply collect_map with (h := indexer_variant_sem f); [|exact HV]. intros [a n ts] c _ Hc. unfold indexer_variant_sem in Hc. cbn [va_attr va_tys va_name] in *.
          apply obind_some in Hc as (x & Hx & Hc). destruct n as [|n]; [easy|]. injection Hx as ->. destruct a; try easy. apply map_some in Hc as (Ts & Hc & <-).
          unfold plain_variant, svariant_of. cbn [va_attr va_tys va_name sv_attrs sv_fields sv_name attrs_of token_name].
          apply types_are in Hc. destruct ts; cbn [map] in *; now rewrite Hc.
      + destruct (un_indexer u) eqn:X; [easy|]. destruct (un_union u) as [ui|] eqn:U; [|easy].
        unfold derives_serde, derives_xdr. cbn [derived derives flat_map sa_name sa_args String.eqb Ascii.eqb Bool.eqb map app has existsb orb andb].
        destruct IU as [K1 K2]; [easy|]. rewrite (union_here K1 K2).
        rewrite (@union_is (un_name u) (IUnion u) ui (un_variants u) T F); [easy| |exact H].
        intros t ms E. cbn [type_items]. unfold union_items. destruct (un_default u). rewrite X, U. cbn -[union_of]. rewrite E. cbn.
        unfold union_of in E. destruct (ui_disc ui); [|easy]. injection E as <- _. cbn. now rewrite String.eqb_refl.
  Qed.
  Lemma item_means i T : In i (fi_types f) -> item_sem f i = Some T ->
    exists r, collect (item_meaning items) (type_items i) = Some r /\ concat r = [(item_name i, T)].
  Proof.
    intros I H. pose proof (head_means I H) as M. destruct (item_shape i) as (rest & -> & _ & R). destruct (impls_mean R) as (r & C & E).
    exists ([(item_name i, T)] :: r). cbn [collect]. rewrite M, C. split; [easy|]. cbn. now rewrite E.
  Qed.
  Lemma file_means E : file_env f = Some E -> meaning items = Some E.
  Proof.
    intros H. unfold meaning. unfold items at 2, items_of. cbn [collect item_meaning]. rewrite !collect_app.
    assert (A : exists r, collect (item_meaning items) (flat_map use_items (fi_uses f)) = Some r /\ concat r = []).
    { clear. induction (fi_uses f) as [|g l (r & IH & E)]; [now exists []|]. cbn [flat_map]. rewrite collect_app, IH. destruct g; cbn; eexists; (split; [reflexivity|exact E]). }
    assert (B : exists r, collect (item_meaning items) (map const_item_of (fi_consts f)) = Some r /\ concat r = []).
    { clear. induction (fi_consts f) as [|c l (r & IH & E)]; [now exists []|]. cbn [map collect]. rewrite IH. eexists. split; [reflexivity|exact E]. }
    destruct A as (ra & -> & EA). destruct B as (rb & -> & EB).
    enough (C : exists r, collect (item_meaning items) (flat_map type_items (fi_types f)) = Some r /\ concat r = E).
    { destruct C as (rc & -> & EC). cbn. rewrite !concat_app. now rewrite EA, EB, EC. }
    unfold file_env in H. assert (S : incl (fi_types f) (fi_types f)) by apply incl_refl. revert E H S. generalize (fi_types f) at 1 2 4 as l.
    induction l as [|i l IH]; intros E H S.
    - injection H as <-. now exists [].
    - cbn [omap] in H. apply obind_some in H as (p & P & H). apply obind_some in H as (E' & H & [= <-]). apply map_some in P as (T & P & <-).
      destruct (item_means (S i (or_introl eq_refl)) P) as (r & C & K). destruct (IH E' H (fun j h => S j (or_intror h))) as (r' & C' & K').
      exists (r ++ r'). cbn [flat_map]. rewrite collect_app, C, C'. split; [easy|]. rewrite concat_app. now rewrite K, K'.
  Qed.
End File.
