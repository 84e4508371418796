(** The token trees of the templates are parsed as the items of the file. *)
From Verif Require Import Base RustTypes SpecCase Nom GenModel RustAst RustText SpecRust SpecSyntax TextLex.
Set Implicit Arguments.
Unset Strict Implicit.
Local Open Scope string_scope.
Local Open Scope list_scope.
Local Open Scope nat_scope.

(** ** Trees of templates *)
Definition T (cs : list call) : list tree := flat_map trees_of cs.
Lemma T_app a b : T (a ++ b) = T a ++ T b.
Proof. apply flat_map_app. Qed.
Lemma T_nil : T [] = [].
Proof. reflexivity. Qed.
Lemma T_w x : T (w x) = [Leaf (LWord x)].
Proof. reflexivity. Qed.
Lemma T_o s : T (o s) = [Leaf (LOp s)].
Proof. reflexivity. Qed.
Lemma T_life x : T [CLife x] = [Leaf (LLife x)].
Proof. reflexivity. Qed.
Lemma T_str x : T [CStr x] = [Leaf (LStr x)].
Proof. reflexivity. Qed.
Lemma T_parens l : T (parens l) = [Node BRound (T l)].
Proof. reflexivity. Qed.
Lemma T_brackets l : T (brackets l) = [Node BSquare (T l)].
Proof. reflexivity. Qed.
Lemma T_braces l : T (braces l) = [Node BCurly (T l)].
Proof. reflexivity. Qed.
Lemma T_dcolon a b : T (dcolon a b) = T a ++ Leaf (LOp "::") :: T b.
Proof. unfold dcolon. now rewrite !T_app. Qed.
Lemma T_arm a b : T (arm a b) = T a ++ Leaf (LOp "=>") :: T b.
Proof. unfold arm. now rewrite !T_app. Qed.
Lemma one_app {A} (a : A) l : [a] ++ l = a :: l.
Proof. reflexivity. Qed.
Lemma cons_app {A} (a : A) l m : (a :: l) ++ m = a :: l ++ m.
Proof. reflexivity. Qed.
Definition sign (z : Z) : list tree := if (z <? 0)%Z then [Leaf (LOp "-")] else [].
Lemma T_num s z : T (num s z) = sign z ++ [Leaf (LInt (Z.abs z) s)].
Proof. cbn. now rewrite app_nil_r. Qed.

Create HintDb tr.
#[export] Hint Rewrite T_app T_nil T_w T_o T_life T_str T_parens T_brackets T_braces T_dcolon T_arm @one_app @cons_app @app_nil_l @app_nil_r : tr.
#[export] Hint Rewrite <- @app_assoc : tr.
Ltac tr := autorewrite with tr.

(** ** Lists *)
Section Lists.
  Variables (A : Type) (p : parser A).

  Inductive Sep : list tree -> list A -> Prop :=
  | sep_nil : Sep [] []
  | sep_last x a : x <> [] -> p x = Some (a, []) -> Sep x [a]
  | sep_more x a r l : p (x ++ Leaf (LOp ",") :: r) = Some (a, Leaf (LOp ",") :: r) -> Sep r l ->
      Sep (x ++ Leaf (LOp ",") :: r) (a :: l).
  Lemma separated_mono n : forall m ts l, separated n p ts = Some l -> n <= m -> separated m p ts = Some l.
  Proof.
    induction n as [|n IH]; intros m ts l H L; destruct ts as [|t ts].
    - now destruct m.
    - discriminate.
    - now destruct m.
    - destruct m as [|m]; [lia|]. cbn [separated] in *. destruct (p (t :: ts)) as [[a [|t' r]]|]; try easy.
      destruct (op "," (t' :: r)) as [r'|]; [|easy]. destruct (separated n p r') as [l'|] eqn:E; [|easy].
      now rewrite (IH m _ _ E) by lia.
  Qed.
  Lemma Sep_list ts l : Sep ts l -> list_of p ts = Some l.
  Proof.
    unfold list_of. induction 1 as [|x a N H|x a r l H S IH].
    - reflexivity.
    - destruct x as [|t x]; [easy|]. cbn [length separated]. now rewrite H.
    - assert (E : exists t ts, x ++ Leaf (LOp ",") :: r = t :: ts /\ length r <= length ts).
      { destruct x as [|t x]; [now exists (Leaf (LOp ",")), r|]. exists t, (x ++ Leaf (LOp ",") :: r). split; [reflexivity|].
        rewrite app_length. cbn. lia. }
      destruct E as (t & ts & E & L). rewrite E in *. cbn [length separated]. rewrite H. cbn [op].
      change (String.eqb "," ",") with true. cbv beta iota. now rewrite (separated_mono IH L).
  Qed.

  (** what follows an element *)
  Definition after (r : list tree) : Prop := r = [] \/ exists r', r = Leaf (LOp ",") :: r'.
  Lemma Sep_commas {B} (f : B -> list call) (g : B -> A) l :
    (forall b r, In b l -> after r -> p (T (f b) ++ r) = Some (g b, r)) -> (forall b, In b l -> T (f b) <> []) ->
    Sep (T (commas (map f l))) (map g l).
  Proof.
    induction l as [|b l IH]; intros H N; [constructor|]. destruct l as [|b' l].
    - cbn [map commas]. apply sep_last; [apply N; now left|]. rewrite <- (app_nil_r (T (f b))). apply H; [now left|now left].
    - assert (E : T (commas (map f (b :: b' :: l))) = T (f b) ++ Leaf (LOp ",") :: T (commas (map f (b' :: l)))).
      { change (commas (map f (b :: b' :: l))) with (f b ++ o "," ++ commas (map f (b' :: l))). now rewrite !T_app. }
      rewrite E. change (map g (b :: b' :: l)) with (g b :: map g (b' :: l)). apply sep_more.
      + apply H; [now left|]. right. eauto.
      + apply IH; intros; [apply H|apply N]; auto; now right.
  Qed.
  Lemma Sep_commas_more {B} (f : B -> list call) (g : B -> A) more k l :
    (forall b r, In b l -> after r -> p (T (f b) ++ r) = Some (g b, r)) -> l <> [] -> Sep more k ->
    Sep (T (commas (map f l)) ++ Leaf (LOp ",") :: more) (map g l ++ k).
  Proof.
    intros H N K. induction l as [|b l IH]; [easy|]. destruct l as [|b' l].
    - cbn [map commas app]. apply sep_more; [|exact K]. apply H; [now left|]. right. eauto.
    - assert (E : T (commas (map f (b :: b' :: l))) = T (f b) ++ Leaf (LOp ",") :: T (commas (map f (b' :: l)))).
      { change (commas (map f (b :: b' :: l))) with (f b ++ o "," ++ commas (map f (b' :: l))). now rewrite !T_app. }
      rewrite E, <- app_assoc. cbn [app]. change (map g (b :: b' :: l)) with (g b :: map g (b' :: l)). cbn [app]. apply sep_more.
      + apply H; [now left|]. right. eauto.
      + apply IH; [|discriminate]. intros. apply H; auto. now right.
  Qed.

  Inductive Many : list tree -> list A -> Prop :=
  | many_nil : Many [] []
  | many_cons x a r l : x <> [] -> p (x ++ r) = Some (a, r) -> Many r l -> Many (x ++ r) (a :: l).
  Lemma many_mono n : forall m ts l, many n p ts = Some l -> n <= m -> many m p ts = Some l.
  Proof.
    induction n as [|n IH]; intros m ts l H L; destruct ts as [|t ts].
    - now destruct m.
    - discriminate.
    - now destruct m.
    - destruct m as [|m]; [lia|]. cbn [many] in *. destruct (p (t :: ts)) as [[a r]|]; [|easy].
      destruct (many n p r) as [l'|] eqn:E; [|easy]. now rewrite (IH m _ _ E) by lia.
  Qed.
  Lemma Many_list ts l : Many ts l -> many (length ts) p ts = Some l.
  Proof.
    induction 1 as [|x a r l N H S IH]; [reflexivity|].
    destruct x as [|t x]; [easy|]. cbn [app length many] in *. rewrite H.
    assert (L : length r <= length (x ++ r)) by (rewrite app_length; lia). now rewrite (many_mono IH L).
  Qed.
End Lists.

(** ** Words *)
Definition word_ok (x : string) : Prop := ~ In x rust_words /\ x <> "_".
Lemma word_plain x : word_ok x -> plain_word x = true.
Proof.
  intros [H U]. unfold plain_word. apply negb_true_iff. apply not_true_iff_false. intros E.
  apply existsb_exists in E as (y & [<-|Hy] & E); apply String.eqb_eq in E; subst; easy.
Qed.
Lemma kw_plain s x r : plain_word x = true -> In s ("_" :: rust_words) -> kw s (Leaf (LWord x) :: r) = None.
Proof.
  intros H I. cbn [kw]. destruct (String.eqb_spec s x) as [->|]; [|easy]. exfalso.
  unfold plain_word in H. apply negb_true_iff in H. rewrite (proj2 (existsb_exists _ _)) in H; [easy|].
  exists x. split; [exact I|apply String.eqb_refl].
Qed.
Ltac in_list := cbn; repeat ((left; reflexivity) || right).
Lemma kw_eq s r : kw s (Leaf (LWord s) :: r) = Some r.
Proof. cbn [kw]. now rewrite String.eqb_refl. Qed.
Lemma op_eq s r : op s (Leaf (LOp s) :: r) = Some r.
Proof. cbn [op]. now rewrite String.eqb_refl. Qed.
Lemma kw_ne s s' r : String.eqb s s' = false -> kw s (Leaf (LWord s') :: r) = None.
Proof. intros H. cbn [kw]. now rewrite H. Qed.
Lemma op_ne s s' r : String.eqb s s' = false -> op s (Leaf (LOp s') :: r) = None.
Proof. intros H. cbn [op]. now rewrite H. Qed.
Lemma op_word s x r : op s (Leaf (LWord x) :: r) = None.
Proof. reflexivity. Qed.
Lemma name_word x r : plain_word x = true -> name (Leaf (LWord x) :: r) = Some (x, r).
Proof. intros H. cbn [name]. now rewrite H. Qed.

(** nothing of a path or a type follows *)
Definition stops (r : list tree) : Prop := more_names r = ([], r) /\ op "<" r = None.
Lemma path_head x r : plain_word x = true -> get_path (Leaf (LWord x) :: r) =
  let '(xs, r) := more_names r in Some (Path false (x :: xs), r).
Proof. intros H. unfold get_path. cbn [op head_name]. now rewrite H. Qed.
Lemma more_cons x r : plain_word x = true -> more_names (Leaf (LOp "::") :: Leaf (LWord x) :: r) =
  let '(xs, r) := more_names r in (x :: xs, r).
Proof. intros H. cbn [more_names]. change (String.eqb "::" "::") with true. now rewrite H. Qed.
Lemma path1 x r : plain_word x = true -> more_names r = ([], r) -> get_path (Leaf (LWord x) :: r) = Some (plain [x], r).
Proof. intros H M. now rewrite path_head, M. Qed.
Lemma path2 x y r : plain_word x = true -> plain_word y = true -> more_names r = ([], r) ->
  get_path (Leaf (LWord x) :: Leaf (LOp "::") :: Leaf (LWord y) :: r) = Some (plain [x; y], r).
Proof. intros H K M. now rewrite path_head, more_cons, M. Qed.

Lemma more_not s r : String.eqb s "::" = false -> more_names (Leaf (LOp s) :: r) = ([], Leaf (LOp s) :: r).
Proof. intros H. destruct r as [|[[]|] r]; cbn [more_names]; rewrite ?H; reflexivity. Qed.
Lemma stops_op s r : String.eqb s "::" = false -> String.eqb "<" s = false -> stops (Leaf (LOp s) :: r).
Proof. intros H K. split; [now apply more_not|]. cbn [op]. now rewrite K. Qed.
Ltac stop := solve [assumption | split; reflexivity | apply stops_op; reflexivity | apply more_not; reflexivity | reflexivity].

(** ** Types *)
Fixpoint need (t : rty) : nat :=
  match t with
  | YArray t _ _ => S (Nat.max (need t) 4)
  | YVec t | YOption t | YBox t => S (need t)
  | YVecVarArray => 2
  | _ => 1
  end.

Lemma type_named n x r : plain_word x = true -> stops r -> get_type (S n) (Leaf (LWord x) :: r) = Some (ty1 x, r).
Proof. intros H [M L]. cbn [get_type op]. rewrite path1 by assumption. now rewrite L. Qed.
Lemma type_generic n x l r r' : plain_word x = true -> type_args n (get_type n) r = Some (l, r') ->
  get_type (S n) (Leaf (LWord x) :: Leaf (LOp "<") :: r) = Some (ty1_of x l, r').
Proof.
  intros H A. cbn [get_type op]. rewrite path1 by stop.
  change (op "<" (Leaf (LOp "<") :: r)) with (Some r). cbv beta iota. now rewrite A.
Qed.
Lemma args_one n {A} (p : parser A) ts a r : p ts = Some (a, Leaf (LOp ">") :: r) -> type_args (S n) p ts = Some ([a], r).
Proof. intros H. cbn [type_args]. now rewrite H. Qed.
Lemma args_more n {A} (p : parser A) ts a r l r' : p ts = Some (a, Leaf (LOp ",") :: r) -> type_args n p r = Some (l, r') ->
  type_args (S n) p ts = Some (a :: l, r').
Proof. intros H K. cbn [type_args]. rewrite H. cbn [op]. change (String.eqb ">" ",") with false. change (String.eqb "," ",") with true. cbv beta iota. now rewrite K. Qed.
Lemma var_array_type n r : stops r -> get_type (S n) (T var_array ++ r) = Some (variable_array, r).
Proof.
  intros [M L]. unfold var_array. tr. cbn [get_type op]. rewrite path_head, !more_cons, M by reflexivity. now rewrite L.
Qed.

Definition no_as (r : list tree) : Prop := kw "as" r = None.
Lemma expr_operand n ts e r : get_operand n ts = Some (e, r) -> no_as r -> get_expr (S n) ts = Some (e, r).
Proof. intros H K. cbn [get_expr]. rewrite H. now rewrite K. Qed.
Lemma operand_int n z s r : get_operand (S (S n)) (T (num s z) ++ r) = Some (int_expr s z, r).
Proof.
  rewrite T_num. unfold sign, int_expr. destruct (Z.ltb_spec z 0); tr.
  - cbn [get_operand op]. change (String.eqb "-" "-") with true. cbv beta iota. cbn [get_operand op get_int]. repeat f_equal. lia.
  - cbn [get_operand op get_int]. repeat f_equal. lia.
Qed.
(** an expression that is a path: not a call, not a macro *)
Definition no_call (r : list tree) : Prop :=
  more_names r = ([], r) /\ op "!" r = None /\ match r with Node BRound _ :: _ => False | _ => True end.
Lemma operand_word n x r : plain_word x = true -> no_call r -> get_operand (S n) (Leaf (LWord x) :: r) = Some (SePath (plain [x]), r).
Proof.
  intros H (M & O & N). cbn [get_operand op get_int]. unfold get_bool. rewrite !kw_plain by (exact H || in_list).
  rewrite path1 by assumption. rewrite O. destruct r as [|[l|[] ts] r]; easy.
Qed.
Lemma operand_value n v s r : Forall (fun x => plain_word x = true) (token_words v) -> no_call r ->
  get_operand (S (S n)) (T (value_calls s v) ++ r) = Some (value_expr s v, r).
Proof.
  destruct v as [z|x]; cbn [value_calls value_expr token_words]; intros F N; [apply operand_int|].
  inversion F; subst. tr. now apply operand_word.
Qed.

Lemma type_ty t : forall n r, Forall (fun x => plain_word x = true) (type_words t) -> need t <= n -> stops r ->
  get_type n (T (ty_calls t) ++ r) = Some (type_of t, r).
Proof.
  induction t as [s k| | | | |x|t IH len cast|t IH| |t IH|t IH|]; intros n r F L S; cbn [need type_words ty_calls type_of] in *;
    (destruct n as [|n]; [lia|]).
  - tr. replace (int_word s k) with (int_name s k) by now destruct s, k. apply type_named; [now destruct s, k|exact S].
  - tr. now apply type_named.
  - tr. now apply type_named.
  - tr. now apply type_named.
  - tr. now apply type_named.
  - tr. inversion F; subst. now apply type_named.
  - apply Forall_app in F as [F1 F2]. tr. cbn [get_type op].
    rewrite IH; [|exact F1|lia|stop]. cbn [op]. change (String.eqb ";" ";") with true. cbv beta iota.
    do 4 (destruct n as [|n]; [lia|]). destruct cast.
    + tr. cbn [get_expr]. rewrite operand_value; [|exact F2|repeat split]. cbn [kw]. change (String.eqb "as" "as") with true. cbv beta iota.
      rewrite type_named; [reflexivity|reflexivity|split; reflexivity].
    + tr. rewrite <- (app_nil_r (T (value_calls "usize" len))).
      rewrite expr_operand with (e := value_expr "usize" len) (r := []); [reflexivity| |reflexivity]. apply operand_value; [exact F2|repeat split].
  - tr. apply type_generic; [reflexivity|]. destruct n as [|n]; [destruct t; cbn in L; lia|]. apply args_one. apply IH; [exact F|lia|stop].
  - tr. apply type_generic; [reflexivity|]. destruct n as [|n]; [lia|]. apply args_one. apply var_array_type. stop.
  - tr. apply type_generic; [reflexivity|]. destruct n as [|n]; [destruct t; cbn in L; lia|]. apply args_one. apply IH; [exact F|lia|stop].
  - tr. apply type_generic; [reflexivity|]. destruct n as [|n]; [destruct t; cbn in L; lia|]. apply args_one. apply IH; [exact F|lia|stop].
  - now apply var_array_type.
Qed.

(** ** Attributes *)
Lemma after_eq r : after r -> op "=" r = None.
Proof. now intros [->|[r' ->]]. Qed.
Lemma derive_attr l r : Forall (fun x => plain_word x = true) l ->
  get_attr (T (derive_calls l) ++ r) = Some (derives l, r).
Proof.
  intros F. unfold derive_calls. tr. unfold get_attr. cbn [op]. change (String.eqb "#" "#") with true. cbv beta iota.
  cbn [name]. change (plain_word "derive") with true. cbv beta iota.
  rewrite (@Sep_list _ get_meta _ (map MeWord l)); [reflexivity|].
  apply Sep_commas; [|intros; discriminate]. intros x r' Hx A. rewrite Forall_forall in F. unfold get_meta. tr.
  rewrite name_word by now apply F. now rewrite after_eq.
Qed.
Lemma attrs_none r : op "#" r = None -> attrs r = Some ([], r).
Proof. intros H. unfold attrs. cbn [get_attrs]. now rewrite H. Qed.
Lemma attrs_cons t a r l r' : get_attr (Leaf (LOp "#") :: t :: r) = Some (a, r) -> attrs r = Some (l, r') ->
  (forall n m ts l r, get_attrs n ts = Some (l, r) -> n <= m -> get_attrs m ts = Some (l, r)) ->
  attrs (Leaf (LOp "#") :: t :: r) = Some (a :: l, r').
Proof.
  intros H K M. unfold attrs in *. cbn [length]. cbn [get_attrs].
  change (op "#" (Leaf (LOp "#") :: t :: r)) with (Some (t :: r)). cbv beta iota.
  rewrite H. apply M with (m := S (S (length r))) in K; [|lia]. cbn [get_attrs] in K. cbn [get_attrs]. now rewrite K.
Qed.
Lemma get_attrs_mono n : forall m ts l r, get_attrs n ts = Some (l, r) -> n <= m -> get_attrs m ts = Some (l, r).
Proof.
  induction n as [|n IH]; intros m ts l r H L; [discriminate|]. destruct m as [|m]; [lia|]. cbn [get_attrs] in *.
  destruct (op "#" ts) as [t|]; [|exact H]. destruct (get_attr ts) as [[a r0]|]; [|easy].
  destruct (get_attrs n r0) as [[l0 r1]|] eqn:E; [|easy]. now rewrite (IH m _ _ _ E) by lia.
Qed.
Lemma attrs_one cs t a r l r' : T cs = [Leaf (LOp "#"); t] -> get_attr (T cs ++ r) = Some (a, r) -> attrs r = Some (l, r') ->
  attrs (T cs ++ r) = Some (a :: l, r').
Proof. intros E H K. rewrite E in *. cbn [app] in *. apply attrs_cons; [exact H|exact K|exact get_attrs_mono]. Qed.
Lemma derive_attrs d r l r' : Forall (fun x => plain_word x = true) d -> attrs r = Some (l, r') ->
  attrs (T (derive_calls d) ++ r) = Some (derives d :: l, r').
Proof. intros F K. eapply attrs_one; [reflexivity|now apply derive_attr|exact K]. Qed.
Lemma repr_attrs r l r' : attrs r = Some (l, r') ->
  attrs (T (o "#" ++ brackets (w "repr" ++ parens (w "i32"))) ++ r) = Some (Attr "repr" [MeWord "i32"] :: l, r').
Proof. intros K. eapply attrs_one; [reflexivity|reflexivity|exact K]. Qed.
Lemma with_attrs a r : op "#" r = None -> attrs (T (attr_calls a) ++ r) = Some (attrs_of a, r).
Proof.
  intros H. destruct a; cbn [attr_calls attrs_of]; [now apply attrs_none| | |];
    (eapply attrs_one; [reflexivity|reflexivity|now apply attrs_none]).
Qed.

(** ** Patterns and expressions *)
Lemma pat_int n z s r : get_pat (S n) (T (num s z) ++ r) = Some (SpInt z s, r).
Proof.
  rewrite T_num. unfold sign. destruct (Z.ltb_spec z 0); tr.
  - cbn [get_pat kw op get_int]. change (String.eqb "-" "-") with true. cbv beta iota. cbn [get_int]. replace (- Z.abs z)%Z with z by lia. reflexivity.
  - cbn [get_pat kw op get_int]. replace (Z.abs z) with z by lia. reflexivity.
Qed.
Lemma pat_path2 n x y r : plain_word x = true -> plain_word y = true ->
  get_pat (S n) (Leaf (LWord x) :: Leaf (LOp "::") :: Leaf (LWord y) :: Leaf (LOp "=>") :: r) = Some (SpPath (plain [x; y]), Leaf (LOp "=>") :: r).
Proof.
  intros H K. cbn [get_pat op get_int]. unfold get_bool. rewrite !kw_plain by (exact H || in_list).
  now rewrite path2 by stop.
Qed.
Lemma pat_tuple n x y r : plain_word x = true -> plain_word y = true ->
  get_pat (S (S n)) (Leaf (LWord x) :: Leaf (LOp "::") :: Leaf (LWord y) :: Node BRound [Leaf (LWord "_")] :: r) = Some (SpTuple (plain [x; y]) [SpWild], r).
Proof.
  intros H K. cbn [get_pat op get_int]. unfold get_bool. rewrite !kw_plain by (exact H || in_list).
  now rewrite path2 by stop.
Qed.

Lemma after_no_as r : after r -> no_as r.
Proof. now intros [->|[r' ->]]. Qed.
Lemma after_no_call r : after r -> no_call r.
Proof. intros [->|[r' ->]]; [easy|]. split; [apply more_not; reflexivity|easy]. Qed.
Lemma expr_int n z s r : after r -> get_expr (S (S (S n))) (T (num s z) ++ r) = Some (int_expr s z, r).
Proof. intros A. apply expr_operand; [apply operand_int|now apply after_no_as]. Qed.
Lemma expr_ref_int n z s r : after r -> get_expr (S (S (S (S n)))) (T (o "&" ++ num s z) ++ r) = Some (SeRef (int_expr s z), r).
Proof.
  intros A. apply expr_operand; [|now apply after_no_as]. rewrite T_app, T_o, one_app, cons_app.
  assert (H := operand_int n z s r). revert H. generalize (T (num s z) ++ r). intros ts H.
  change (get_operand (S (S (S n))) (Leaf (LOp "&") :: ts)) with (let? (e, r) := get_operand (S (S n)) ts in Some (SeRef e, r)). now rewrite H.
Qed.
Lemma expr_named n x r : after r -> get_expr (S (S (S (S n)))) (T (ok (stringify (w x))) ++ r) = Some (named x, r).
Proof. intros A. apply expr_operand; [reflexivity|now apply after_no_as]. Qed.
Lemma expr_convert n r : after r -> get_expr (S (S (S (S n)))) (T err_convert ++ r) = Some (convert true, r).
Proof. intros A. apply expr_operand; [reflexivity|now apply after_no_as]. Qed.
Lemma expr_convert_local n r : after r ->
  get_expr (S (S (S (S n)))) (T (w "Err" ++ parens (dcolon xdr_error (w "Convert"))) ++ r) = Some (convert false, r).
Proof. intros A. apply expr_operand; [reflexivity|now apply after_no_as]. Qed.
Lemma expr_unimplemented n r : after r ->
  get_expr (S (S (S n))) (T (w "unimplemented" ++ o "!" ++ parens []) ++ r) = Some (SeMacro "unimplemented" [], r).
Proof. intros A. apply expr_operand; [reflexivity|now apply after_no_as]. Qed.
Lemma operand_path2 n x y r : plain_word x = true -> plain_word y = true -> no_call r ->
  get_operand (S n) (Leaf (LWord x) :: Leaf (LOp "::") :: Leaf (LWord y) :: r) = Some (SePath (plain [x; y]), r).
Proof.
  intros H K (M & O & N). cbn [get_operand op get_int]. unfold get_bool. rewrite !kw_plain by (exact H || in_list).
  rewrite path2 by assumption. rewrite O. destruct r as [|[l|[] ts] r]; easy.
Qed.
Lemma operand_call2 n x y inner l r : plain_word x = true -> plain_word y = true -> list_of (get_expr n) inner = Some l ->
  get_operand (S n) (Leaf (LWord x) :: Leaf (LOp "::") :: Leaf (LWord y) :: Node BRound inner :: r) = Some (SeCall (plain [x; y]) l, r).
Proof.
  intros H K L. cbn [get_operand op get_int]. unfold get_bool. rewrite !kw_plain by (exact H || in_list).
  rewrite path2 by stop. now rewrite L.
Qed.
Lemma expr_ok_path n x y r : plain_word x = true -> plain_word y = true -> after r ->
  get_expr (S (S (S (S n)))) (T (ok (dcolon (w x) (w y))) ++ r) = Some (SeCall (plain ["Ok"]) [SePath (plain [x; y])], r).
Proof.
  intros H K A. apply expr_operand; [|now apply after_no_as]. unfold ok. tr.
  cbn [get_operand op get_int]. unfold get_bool. rewrite !kw_plain by (reflexivity || in_list). rewrite path1 by reflexivity.
  rewrite (@Sep_list _ (get_expr (S (S n))) _ [SePath (plain [x; y])]); [reflexivity|].
  apply sep_last; [discriminate|]. apply expr_operand; [|reflexivity]. now apply operand_path2.
Qed.

(** match *)
Definition get_arm (n : nat) : parser (spat * sexpr) := fun ts =>
  let? (p, r) := get_pat n ts in let? r := op "=>" r in let? (e, r) := get_expr n r in Some ((p, e), r).
Lemma arm_of n p b p' e r : get_pat n (T p ++ Leaf (LOp "=>") :: T b ++ r) = Some (p', Leaf (LOp "=>") :: T b ++ r) ->
  get_expr n (T b ++ r) = Some (e, r) -> get_arm n (T (arm p b) ++ r) = Some ((p', e), r).
Proof.
  intros H K. unfold get_arm. rewrite T_arm, <- app_assoc, cons_app, H. cbn [op]. change (String.eqb "=>" "=>") with true. cbv beta iota. now rewrite K.
Qed.
Lemma expr_match n x inner arms : In x ["index"; "self"; "v"; "value"] -> Sep (get_arm (S (S n))) inner arms ->
  get_expr (S (S (S (S n)))) (Leaf (LWord "match") :: Leaf (LWord x) :: [Node BCurly inner]) = Some (matching x arms, []).
Proof.
  intros I S. apply expr_operand; [|reflexivity]. apply Sep_list in S.
  change (get_operand (Datatypes.S (Datatypes.S (Datatypes.S n))) (Leaf (LWord "match") :: Leaf (LWord x) :: [Node BCurly inner])) with
    (let? (e, Node BCurly inner :: r) := get_expr (Datatypes.S (Datatypes.S n)) (Leaf (LWord x) :: [Node BCurly inner]) in
     let? arms := list_of (get_arm (Datatypes.S (Datatypes.S n))) inner in Some (SeMatch e arms, r)).
  assert (E : get_expr (Datatypes.S (Datatypes.S n)) (Leaf (LWord x) :: [Node BCurly inner]) = Some (SePath (plain [x]), [Node BCurly inner])).
  { repeat (destruct I as [<-|I]; [reflexivity|]). destruct I. }
  rewrite E, S. reflexivity.
Qed.
Lemma wild_sep n b e : (forall r, after r -> get_expr (S n) (T b ++ r) = Some (e, r)) -> Sep (get_arm (S n)) (T (wild_arm b)) [(SpWild, e)].
Proof.
  intros H. unfold wild_arm. rewrite T_app, T_o. apply sep_more; [|constructor]. apply arm_of; [reflexivity|]. apply H. right. eauto.
Qed.

(** ** Members of impls *)
Lemma member_type n e t r : (forall r, stops r -> get_type n (T e ++ r) = Some (t, r)) ->
  get_member n (T (type_error e) ++ r) = Some (MbType "Error" t, r).
Proof.
  intros H. unfold type_error. tr. unfold get_member. rewrite kw_eq, name_word, op_eq by reflexivity.
  rewrite H by stop. now rewrite op_eq.
Qed.
Lemma global_error_type n r : stops r -> get_type (S n) (T global_error ++ r) = Some (SyPath (error_path true []) [], r).
Proof.
  intros [M L]. unfold global_error, xdr_error. tr. cbn [get_type op]. change (String.eqb "&" "::") with false. cbv beta iota.
  unfold get_path. cbn [op]. change (String.eqb "::" "::") with true. cbv beta iota. rewrite name_word by reflexivity.
  rewrite !more_cons, M by reflexivity. now rewrite L.
Qed.
Lemma xdr_error_type n r : stops r -> get_type (S n) (T xdr_error ++ r) = Some (SyPath (error_path false []) [], r).
Proof.
  intros [M L]. unfold xdr_error. tr. cbn [get_type op]. rewrite path_head, !more_cons, M by reflexivity. now rewrite L.
Qed.
Lemma result_str_type n r : get_type (S (S (S n))) (T result_str ++ r) = Some (static_str, r).
Proof. now destruct r as [|[[]|] r]. Qed.
Lemma member_fn n x ps ret body ps' t e r : plain_word x = true -> list_of (get_param n) ps = Some ps' ->
  (forall r, stops r -> get_type n (ret ++ r) = Some (t, r)) -> get_expr n body = Some (e, []) ->
  get_member n (Leaf (LWord "fn") :: Leaf (LWord x) :: Node BRound ps :: Leaf (LOp "->") :: ret ++ Node BCurly body :: r) =
  Some (MbFn x ps' t e, r).
Proof.
  intros H P R B. unfold get_member. rewrite kw_ne, kw_eq, name_word by (reflexivity || exact H).
  rewrite P, op_eq, R by stop. now rewrite B.
Qed.
Lemma impl_item n tr x body tr' ms r : plain_word x = true -> (forall r, stops r -> get_type n (tr ++ r) = Some (tr', r)) -> 1 <= n ->
  Many (get_member n) body ms ->
  get_item n (Leaf (LWord "impl") :: tr ++ Leaf (LWord "for") :: Leaf (LWord x) :: Node BCurly body :: r) = Some (SiImpl tr' (ty1 x) ms, r).
Proof.
  intros H R N M. unfold get_item. rewrite kw_ne, kw_eq by reflexivity. unfold get_impl. rewrite R, kw_eq by stop.
  destruct n as [|n]; [lia|]. rewrite type_named by stop. now rewrite (Many_list M).
Qed.
