(** The values of a protocol are values of its later versions, hence programs
    generated from the two understand each other. *)
From Verif Require Import Base RustTypes SerModel DeModel SpecXdr SpecTypes Nom Ast ParserModel SpecGrammar SpecParse CaseModel SpecCase CaseProofs RustAst
  GenModel SpecGen GenFacts GenPanic SpecItems GenLemmas SpecXdl GenSem SpecWire SpecEmit SpecConv EmitProofs WireBase WireEnum WireFile WireSem WireMain WireLemmas WireConv
  MaxDefs ConvLemmas SpecUpgrade.
Set Implicit Arguments.
Unset Strict Implicit.
Local Open Scope list_scope.

Section Values.
  Variables (old new : list definition) (R : string -> string -> Prop) (dm' : bool).
  Hypothesis U : upgrade old new R.
  Let gd := grown old new R.
  Let gs := grown_spec old new R.

  Lemma wider_within max max' n : wider old new max max' -> within old max n -> within new max' n.
  Proof.
    intros [->|(v & v' & m & m' & -> & -> & V & V' & L)] [B W]; [easy|]. split; [easy|]. destruct W as (k & Vk & Lk).
    exists m'. split; [easy|]. rewrite (value_is_fun Vk V) in Lk. lia.
  Qed.

  (** what is known of a value [x] of the old type [t] *)
  Let named (t : tyspec) (x : xv) : Prop :=
    (by_keyword t -> xtype new dm' t x) /\
    (forall n n', t = TsIdent n -> R n n' -> xtype new dm' (TsIdent n') x) /\
    (forall n d, t = TsIdent n -> first n (type_defs old) (TdDecl d) -> forall d', gd d d' -> xdecl new dm' d' x).
  Lemma named_grows t x : named t x -> (forall d d', gd d d' -> forall y, d = DVariable t y -> xdecl new dm' d' x) /\
    (forall t0 t', gs t0 t' -> t0 = t -> xtype new dm' t' x).
  Proof.
    intros (F1 & F2 & F3). unfold gd, gs. apply grown_grown_spec_ind; try discriminate.
    - intros t0 t' y y' _ H z [= -> _]. constructor. auto.
    - intros n y d d' F G _ z [= <- _]. eapply F3; eauto. 
    - intros n y d d' F _ H z E. constructor. eapply xt_typedef; eauto.
    - intros t0 B ->. auto.
    - intros n n' HR <-. eauto.
    - intros n d t' y F G _ <-. assert (X : xdecl new dm' (DVariable t' y) x) by (eapply F3; eauto). now inversion X.
    - intros n d t0 y F _ H ->. eapply xt_typedef; eauto.
  Qed.
  (** typedefs that are introduced *)
  Lemma introduced d x : (forall t y, d <> DVariable t y) ->
    (forall d', gd d d' -> (forall t y, d' <> DVariable t y) -> xdecl new dm' d' x) -> forall d', gd d d' -> xdecl new dm' d' x.
  Proof.
    intros N H d' G. unfold gd in *. induction G; try (apply H; [econstructor; eauto|discriminate]).
    - now destruct (N t x0).
    - now destruct (N (TsIdent n) x0).
    - constructor. eapply xt_typedef; eauto.
  Qed.
  Ltac intro_by := apply introduced; [discriminate|]; intros d' G N; inversion G; subst; try (exfalso; eapply N; reflexivity).

  Let body (t : tyspec) (x : xv) : Prop :=
    match t with
    | TsEnum l => forall l', grown_enum old new l l' -> xtype new dm' (TsEnum l') x
    | TsStruct l => forall l', Forall2 gd l l' -> xtype new dm' (TsStruct l') x
    | TsUnion u => forall u', grown_union old new R u u' -> xtype new dm' (TsUnion u') x
    | _ => True
    end.

  Lemma upgrade_values dm : (dm = true -> dm' = true) ->
    (forall t x, xtype old dm t x -> (forall t', gs t t' -> xtype new dm' t' x) /\ (forall y d', gd (DVariable t y) d' -> xdecl new dm' d' x) /\ body t x) /\
    (forall d x, xdecl old dm d x -> forall d', gd d d' -> xdecl new dm' d' x) /\
    (forall t xs, xall old dm t xs -> forall t', gs t t' -> xall new dm' t' xs) /\
    (forall l xs, xfields old dm l xs -> forall l', Forall2 gd l l' -> xfields new dm' l' xs).
  Proof.
    intros DM.
    assert (NG : forall t x, named t x -> body t x -> (forall t', gs t t' -> xtype new dm' t' x) /\ (forall y d', gd (DVariable t y) d' -> xdecl new dm' d' x) /\ body t x).
    { intros t x N B. destruct (named_grows N) as [G1 G2]. split; [|split]; eauto. }
    assert (KW : forall t x, (forall n, t <> TsIdent n) -> (by_keyword t -> xtype new dm' t x) -> named t x).
    { intros t x N H. split; [easy|]. split; intros n d E; now destruct (N n). }
    assert (ID : forall n t x, first n (type_defs old) t -> (forall n' t', first n' (type_defs new) t' -> grown_type old new R t t' -> xtype new dm' (TsIdent n') x) ->
      (forall d, t = TdDecl d -> forall d', gd d d' -> xdecl new dm' d' x) -> named (TsIdent n) x).
    { intros n t x F H1 H2. split; [easy|]. split.
      - intros m n' [= <-] HR. destruct (U HR) as (t1 & t' & F1 & F' & G). rewrite (first_fun F1 F) in G. eauto.
      - intros m d [= <-] F1. apply H2. exact (first_fun F F1). }
    apply xtype_xdecl_ind.
    1-11: intros; (apply NG; [apply KW; [discriminate|]; intros _; now constructor|exact Logic.I]).
    - intros l a z I V B. apply NG; [apply KW; [discriminate|easy]|]. intros l' G. destruct (G a z I V) as (a' & I' & V'). now apply xt_enum with a'.
    - intros l xs _ H. apply NG; [apply KW; [discriminate|easy]|]. intros l' G. constructor. auto.
    - intros t y specs dflt d z vs v arm a _ (HD & _) N I Iv L _ HA. apply NG; [apply KW; [discriminate|easy]|].
      intros [c' specs' dflt'] ((t0 & t' & x0 & x' & [= <- <-] & -> & GC) & GS & _). destruct (GS _ _ _ _ I Iv L) as (vs' & arm' & v' & I' & Iv' & L' & G).
      apply xt_case with z vs' v' arm'; auto.
    - intros t y specs d z arm a D _ (HD & _) N L _ HA. apply NG; [apply KW; [discriminate|easy]|].
      intros [c' specs' dflt'] ((t0 & t' & x0 & x' & [= <- <-] & -> & GC) & _ & GD). destruct (GD _ eq_refl) as (arm' & -> & G & NL).
      apply xt_default with z; auto. intros v' I' L'. destruct (NL _ _ I' L') as (v & I & Lv). now apply (L v I).
    - intros n d x F _ H. apply NG; [|exact Logic.I]. apply (ID n _ x F).
      + intros n' t' F' G. destruct t'; try easy. eapply xt_typedef; eauto.
      + intros d1 [= <-]. exact H.
    - intros n y l x F _ (_ & _ & H). apply NG; [|exact Logic.I]. apply (ID n _ x F); [|discriminate].
      intros n' t' F' G. destruct t'; try easy. eapply xt_name_enum; eauto.
    - intros n y l x F _ (_ & _ & H). apply NG; [|exact Logic.I]. apply (ID n _ x F); [|discriminate].
      intros n' t' F' G. destruct t'; try easy. eapply xt_name_struct; eauto.
    - intros n y u x F _ (_ & _ & H). apply NG; [|exact Logic.I]. apply (ID n _ x F); [|discriminate].
      intros n' t' F' G. destruct t'; try easy. eapply xt_name_union; eauto.
    - intros t y x _ (_ & H & _). exact (H y).
    - intros t y v xs V _ H. intro_by. constructor; auto.
    - intros t y max xs W _ H. intro_by. constructor; auto. eapply wider_within; eauto.
    - intros y v bs V. intro_by. constructor; auto.
    - intros y max bs W. intro_by. constructor. eapply wider_within; eauto.
    - intros y max bs UT W. intro_by. constructor; auto. eapply wider_within; eauto.
    - intros t y. intro_by. constructor.
    - intros t y x _ (H & _). intro_by. constructor. auto.
    - intro_by. constructor.
    - constructor.
    - intros t x xs _ (H & _) _ HS t' G. constructor; auto.
    - intros l' G. inversion G; subst. constructor.
    - intros d l x xs _ H _ HS l' G. inversion G; subst. constructor; auto.
  Qed.
  Lemma upgrade_value dm x x' v : (dm = true -> dm' = true) -> R x x' -> xtype old dm (TsIdent x) v -> xtype new dm' (TsIdent x') v.
  Proof. intros DM HR H. apply (proj1 (proj1 (upgrade_values DM) _ _ H)). now constructor. Qed.
End Values.

(** ** Without the declared maxima *)
Section WithoutMax.
  Variables (old new : list definition) (R : string -> string -> Prop).
  Let old' := map def_without_max old.
  Let new' := map def_without_max new.

  Lemma lengths_max v v' : (forall z, value_is old v z -> value_is new v' z) -> forall z, value_is old' v z -> value_is new' v' z.
  Proof. intros V z Vz. apply (proj2 (value_max new _ _)). apply V. exact (proj1 (value_max old _ _) Vz). Qed.
  Lemma grown_max : (forall d d', grown old new R d d' -> grown old' new' R (without_max d) (without_max d')) /\
    (forall t t', grown_spec old new R t t' -> grown_spec old' new' R t t').
  Proof.
    apply grown_grown_spec_ind; intros; cbn in *; try (constructor; eauto using lengths_max; now left).
    - eapply gr_inline; [|eauto]. match goal with F : first _ _ _ |- _ => exact (first_max F) end.
    - eapply gr_typedef; [|eauto]. match goal with F : first _ _ _ |- _ => exact (first_max F) end.
    - eapply gs_inline; [|eauto]. match goal with F : first _ _ _ |- _ => exact (first_max F) end.
    - eapply gs_typedef; [|eauto]. match goal with F : first _ _ _ |- _ => exact (first_max F) end.
  Qed.
  Lemma strip_in vs arm specs : In (CaseSpec vs arm) specs -> In (CaseSpec vs (without_max arm)) (map strip_spec specs).
  Proof. intros I. apply in_map_iff. now exists (CaseSpec vs arm). Qed.
  Lemma upgrade_max : upgrade old new R -> upgrade old' new' R.
  Proof.
    destruct grown_max as [GM GT]. intros U x x' HR. destruct (U _ _ HR) as (t & t' & F & F' & G).
    exists (type_without_max t), (type_without_max t'). split; [now apply first_max|]. split; [now apply first_max|].
    destruct t as [d|y l|y l|y u], t' as [d'|y' l'|y' l'|y' u']; try easy; cbn in G |- *.
    - auto.
    - intros a z I V. apply (proj1 (value_max old _ _)) in V. destruct (G a z I V) as (a' & I' & V'). exists a'. split; [easy|]. exact (proj2 (value_max new _ _) V').
    - clear - G GM. induction G; cbn; constructor; auto.
    - destruct u as [c specs dflt], u' as [c' specs' dflt']. destruct G as (GC & GS & GD). cbn. split; [|split].
      + destruct GC as (t & t' & y0 & y1 & -> & -> & GC). exists t, t', y0, y1. auto.
      + intros vs arm v z I Iv L. apply in_map_iff in I as ([vs0 arm0] & [= <- <-] & I). apply (proj1 (label_max old _ _)) in L.
        destruct (GS _ _ _ _ I Iv L) as (vs' & arm' & v' & I' & Iv' & L' & G). exists vs', (without_max arm'), v'.
        split; [now apply strip_in|]. split; [easy|]. split; [exact (proj2 (label_max new _ _) L')|auto].
      + intros arm E. destruct dflt as [a|]; [|discriminate]. injection E as <-. destruct (GD _ eq_refl) as (arm' & -> & G & NL).
        exists (without_max arm'). split; [easy|]. split; [auto|]. intros v' z I L.
        change (In v' (labels (map strip_spec specs'))) in I. rewrite strip_labels in I. apply (proj1 (label_max new _ _)) in L.
        destruct (NL _ _ I L) as (v & Iv & Lv). exists v. split; [|exact (proj2 (label_max old _ _) Lv)]. change (In v (labels (map strip_spec specs))). now rewrite strip_labels.
  Qed.
End WithoutMax.

Lemma grown_item old new R t t' : grown_type old new R t t' -> is_typedef t = false -> is_typedef t' = false.
Proof. now destruct t, t'. Qed.

(** ** Values of the old protocol *)
Lemma upgrade_speaks fl fl' checks checks' src src' old new R :
  let cfg := main_config fl checks in let cfg' := main_config fl' checks' in
  greturns (fun n => parse n src) (GOk old) -> definitions_ok cfg old ->
  greturns (fun n => parse n src') (GOk new) -> definitions_ok cfg' new -> upgrade old new R ->
  exists f f' E E', generated cfg old f E /\ compiles f /\ generated cfg' new f' E' /\ compiles f' /\
    forall x x' td td' dm xval, R x x' -> first x (type_defs old) td -> is_typedef td = false -> first x' (type_defs new) td' ->
      (forall y l, td = TdEnum y l -> enum_impl_std_trait cfg = false \/ dense old l) ->
      (forall y l, td' = TdEnum y l -> enum_impl_std_trait cfg' = false \/ dense new l) ->
      (dm = true -> union_impl_union cfg = true /\ union_impl_union cfg' = true) ->
      xtype old dm (TsIdent x) xval ->
      exists y y' v v', camel_of x y /\ camel_of x' y' /\ speaks E (TRef y) v xval /\ speaks E' (TRef y') v' xval.
Proof.
  intros cfg cfg' P DO P' DO' U. destruct (c56 P DO) as (f & E & GE & C & W), (c56 P' DO') as (f' & E' & GE' & C' & W').
  exists f, f', E, E'. do 4 (split; [easy|]). intros x x' td td' dm xval HR F N F' EN EN' DM X.
  destruct (W x td xval F N EN) as (y & v & Cy & S).
  { change (xtype old (union_impl_union cfg) (TsIdent x) xval). destruct dm; [now rewrite (proj1 (DM eq_refl))|]. now apply (proj1 (@weaken old (union_impl_union cfg) false eq_refl)). }
  destruct (W' x' td' xval F') as (y' & v' & Cy' & S').
  { destruct (U _ _ HR) as (t & t' & F0 & F1 & G). rewrite (first_fun F' F1). rewrite (first_fun F0 F) in G. exact (grown_item G N). }
  { exact EN'. }
  { refine (upgrade_value U _ HR X). intros D. apply (DM D). }
  now exists y, y', v, v'.
Qed.

(** ** Everything the old program can decode *)
Lemma upgrade_decoded fl fl' checks checks' src src' old new R f f' E E' :
  let cfg := main_config fl checks in let cfg' := main_config fl' checks' in
  greturns (fun n => parse n src) (GOk old) -> definitions_ok cfg old -> exact_defs cfg old ->
  greturns (fun n => parse n src') (GOk new) -> definitions_ok cfg' new -> upgrade old new R ->
  generated cfg old f E -> generated cfg' new f' E' -> (union_impl_union cfg = true -> union_impl_union cfg' = true) ->
  forall x x' td td', R x x' -> first x (type_defs old) td -> is_typedef td = false -> first x' (type_defs new) td' ->
    (forall y l, td = TdEnum y l -> enum_impl_std_trait cfg = false \/ dense old l) ->
    (forall y l, td' = TdEnum y l -> enum_impl_std_trait cfg' = false \/ dense new l) ->
    exists y y', camel_of x y /\ camel_of x' y' /\ forall n bs v, from_bytes n E (TRef y) bs = Ok v ->
      exists bs' v', returns (fun n => to_bytes n E (TRef y) v) (Ok bs') /\
        returns (fun n => from_bytes n E' (TRef y') bs') (Ok v') /\
        returns (fun n => to_bytes n E' (TRef y') v') (Ok bs') /\
        returns (fun n => from_bytes n E (TRef y) bs') (Ok v).
Proof.
  intros cfg cfg' P DO EX P' DO' U GE GE' UM x x' td td' HR F N F' EN EN'. exists (camel x), (camel x'). do 2 (split; [apply camel_of_camel|]). intros n bs v H.
  pose proof (supported_main P DO : supported_defs cfg old) as SD. pose proof (supported_main P' DO' : supported_defs cfg' new) as SD'.
  destruct (d_value SD EX GE F N EN H) as (xv & X & (bs' & RB) & S).
  apply (upgrade_value (upgrade_max U) UM HR) in X.
  assert (N' : is_typedef td' = false).
  { destruct (U _ _ HR) as (t & t' & F0 & F1 & G). rewrite (first_fun F' F1). rewrite (first_fun F0 F) in G. exact (grown_item G N). }
  destruct (@w_value cfg' (map def_without_max new) (supported_max SD') f' E' (generated_max GE') x' (type_without_max td') xv) as (y & v' & Cy & S'); try easy.
  - now apply first_max.
  - now destruct td'.
  - intros y l Et. destruct td'; try discriminate. injection Et as <- <-. destruct (EN' _ _ eq_refl) as [?|D]; [now left|right; now apply dense_max].
  - destruct S' as [_ S']. destruct (S bs' RB) as [S1 S2]. destruct (S' bs' RB) as [S3 S4].
    assert (y = camel x') as -> by (now apply camel_of_iff in Cy).
    exists bs', v'. easy.
Qed.
