(** What programs generated with different flags make of one input. *)
From Verif Require Import Base SpecUtf8 RustTypes SerModel DeModel SpecXdr SpecTypes SpecDecode XdrFacts EncProofs DecProofs CodecProofs CodecLemmas Nom NomFacts Ast ParserModel
  SpecGrammar SpecParse ConstProofs CaseModel SpecCase CaseProofs RustAst GenModel SpecGen GenFacts GenTotal GenPanic SpecItems GenLemmas SpecXdl GenSem SpecWire SpecEmit SpecConv
  EmitProofs WireBase WireEnum WireTok WireMain WireLemmas WireConv MaxDefs ConvLemmas SpecRead UpgradeProofs MisreadProofs ReadProofs.
Set Implicit Arguments.
Unset Strict Implicit.
Local Open Scope list_scope.

(** ** The encoding of a discriminant is read in every mode *)
Lemma signed_low n k z w : n = 8 \/ n = 16 -> k = 4%nat -> signed k z w -> low_bits n z w.
Proof.
  intros Hn -> [L S]. exists (nval w). split; [easy|]. cbn in S. destruct S as [[_ ->]|[_ ->]]; [now rewrite Z.sub_diag|].
  destruct Hn as [->| ->].
  - replace (z - _) with (- 2 ^ 24 * 2 ^ 8) by lia. apply Z.mod_mul. lia.
  - replace (z - _) with (- 2 ^ 16 * 2 ^ 16) by lia. apply Z.mod_mul. lia.
Qed.
Lemma unsigned_low n z w : unsigned 4 z w -> low_bits n z w.
Proof. intros U. exists z. split; [easy|]. now rewrite Z.sub_diag. Qed.

Lemma disc_read ds dm um ix :
  (forall t x, xtype ds dm t x -> forall z w, number_of x z -> rfc x w -> xread ds um ix t x w) /\
  (forall d x, xdecl ds dm d x -> forall z w, number_of x z -> rfc x w -> xread_decl ds um ix d x w) /\
  (forall t xs, xall ds dm t xs -> True) /\ (forall l xs, xfields ds dm l xs -> True).
Proof.
  assert (NN : forall x zx, number_of x zx -> match x with XInt _ | XUInt _ | XEnum _ => True | _ => False end).
  { intros x zx [->|[->| ->]]; exact Logic.I. }
  apply xtype_xdecl_ind; try (intros; exact Logic.I); try (intros; exfalso; match goal with H : number_of _ _ |- _ => exact (NN _ _ H) end).
  - intros z _ z0 w _ R. inversion R; subst. now constructor.
  - intros z _ z0 w _ R. inversion R; subst. now constructor.
  - intros b z0 w _ R. inversion R as [| |? ? S| | | | | | | | | | | | | |]; subst. apply signed_unsigned in S; [|destruct b; lia]. destruct b.
    + now apply xr_true with 1.
    + now apply xr_false.
  - intros z B z0 w _ R. inversion R; subst. constructor; [easy|]. eapply signed_low; eauto.
  - intros z B z0 w _ R. inversion R; subst. constructor; [easy|]. now apply unsigned_low.
  - intros z B z0 w _ R. inversion R; subst. constructor; [easy|]. eapply signed_low; eauto.
  - intros z B z0 w _ R. inversion R; subst. constructor; [easy|]. now apply unsigned_low.
  - intros l a z Ha V B z0 w _ R. inversion R; subst. now apply xr_enum with a.
  - intros n d x F _ H z w N R. eapply xr_typedef; eauto.
  - intros n y l x F _ H z w N R. eapply xr_name_enum; eauto.
  - intros n y l x F _ H z w N R. eapply xr_name_struct; eauto.
  - intros n y l x F _ H z w N R. eapply xr_name_union; eauto.
  - intros t y x _ H z w N R. constructor. eauto.
Qed.

(** ** More liberal modes *)
Lemma read_more ds um ix um' ix' : (um = true -> um' = true) -> (ix = true -> ix' = true) ->
  (forall t x b, xread ds um ix t x b -> xread ds um' ix' t x b) /\ (forall d x b, xread_decl ds um ix d x b -> xread_decl ds um' ix' d x b) /\
  (forall t xs b, xread_all ds um ix t xs b -> xread_all ds um' ix' t xs b) /\ (forall l xs b, xread_fields ds um ix l xs b -> xread_fields ds um' ix' l xs b).
Proof.
  intros HU HI. apply xread_decl_ind4; try (intros; now constructor); try (intros; now econstructor; eauto).
  - intros t y specs dflt d z vs v arm a w bs M X R N I1 I2 L _ XA. destruct um' eqn:U.
    + eapply xr_case; eauto. eapply (proj1 (disc_read ds um true ix')); eauto.
    + eapply xr_exact_case; eauto. now rewrite M in X.
Qed.

(** ** One reading *)
Section Det.
  Variables (cfg : config) (ds : list definition) (um ix : bool).
  Definition flat (t : tyspec) : Prop := exists k, tkind cfg ds t k.
  Definition flatd (d : decl) : Prop := d = DVoid \/ exists k, dkind cfg ds d k.
  Definition orderly (t : tyspec) : Prop :=
    match t with
    | TsStruct l => Forall flatd l
    | TsUnion (UBody c specs dflt) => one_arm ds (UBody c specs dflt) /\ flatd c /\
        (forall vs d, In (CaseSpec vs d) specs -> flatd d) /\ forall d, dflt = Some d -> flatd d
    | TsEnum _ => True
    | _ => flat t
    end.
  Hypothesis OI : forall x t, In (x, t) (type_defs ds) ->
      match t with
      | TdDecl _ => True
      | TdEnum _ l => enum_ok cfg ds l
      | TdStruct _ l => struct_ok cfg ds l
      | TdUnion _ u => union_supported cfg ds u
      end.
  Lemma flat_orderly t : flat t -> orderly t.
  Proof. intros [k K]. destruct t; try (exists k; exact K); inversion K. Qed.
  Lemma OD n d : flat (TsIdent n) -> first n (type_defs ds) (TdDecl d) -> flatd d.
  Proof. intros [k K] F. right. inversion K as [| | | | | | |? ? ? F'|? ? ? F'|? ? ? F'|? ? ? F'|? ? ? F'|? ? ? F' D|? ? F' D]; subst; pose proof (first_fun F F') as EQ; try discriminate; injection EQ as <-; eauto. Qed.
  Lemma OS n y l : first n (type_defs ds) (TdStruct y l) -> Forall flatd l.
  Proof. intros F. destruct (OI (first_in F)) as (_ & H). revert H. apply Forall_impl. intros d (k & K & _). right. eauto. Qed.
  Lemma uint_flat t : is_uint ds t -> tkind cfg ds t KPlain.
  Proof. induction 1 as [|x t y F U IH]; [constructor|]. eapply tk_typedef; eauto. now constructor. Qed.
  Lemma OU n y u : first n (type_defs ds) (TdUnion y u) -> orderly (TsUnion u).
  Proof.
    intros F. pose proof (OI (first_in F)) as H. cbn in H. pose proof (supported_one_arm H) as OA. destruct u as [c specs dflt]. cbn. split; [easy|].
    destruct H as (_ & (t & nm & -> & DO) & _ & _ & AR & DF). split; [|split].
    - right. assert (exists k, tkind cfg ds t k) as [k K]; [|exists k; now constructor].
      destruct t; try contradiction; try (eexists; now constructor). destruct DO as (_ & _ & _ & DO). destruct (union_impl_union cfg); [|easy].
      destruct DO as [U|(e & y' & l & [= ->] & F' & _)]; [exists KPlain; now apply uint_flat|]. destruct (enum_impl_std_trait cfg) eqn:st; eexists; [eapply tk_std|eapply tk_enum]; eauto.
    - intros vs d I. rewrite Forall_forall in AR. destruct (AR _ I) as [->|(k & K & _)]; [now left|right; eauto].
    - intros d ->. destruct DF as [[->|(k & K & _)] _]; [now left|right; eauto].
  Qed.
  Lemma flat_of t y : flatd (DVariable t y) -> flat t.
  Proof. intros [|[k K]]; [discriminate|]. inversion K; subst. now exists k. Qed.
  Lemma flat_array t y v : flatd (DFixedArray t y v) -> flat t.
  Proof. intros [|[k K]]; [discriminate|]. inversion K; subst. now exists KPlain. Qed.
  Lemma flat_vararray t y v : flatd (DVariableArray t y v) -> flat t.
  Proof. intros [|[k K]]; [discriminate|]. inversion K; subst. now eexists; eauto. Qed.
  Lemma flat_option t y : flatd (DOption t y) -> flat t.
  Proof. intros [|[k K]]; [discriminate|]. inversion K; subst. now eexists; eauto. Qed.

  Lemma word4 {A} (a b c d : list A) : length a = 4%nat -> length c = 4%nat -> a ++ b = c ++ d -> a = c /\ b = d.
  Proof. intros L1 L2. apply app_word. congruence. Qed.
  Lemma word8 {A} (a b c d : list A) : length a = 8%nat -> length c = 8%nat -> a ++ b = c ++ d -> a = c /\ b = d.
  Proof. intros L1 L2. apply app_word. congruence. Qed.
  Lemma low_len n z w : low_bits n z w -> length w = 4%nat.
  Proof. intros (z' & [L _] & _). exact L. Qed.
  Lemma low_fun n z y w lo : 0 < 2 ^ n -> low_bits n z w -> low_bits n y w -> lo <= z < lo + 2 ^ n -> lo <= y < lo + 2 ^ n -> z = y.
  Proof.
    intros P (z1 & U1 & M1) (z2 & U2 & M2) B1 B2. rewrite (unsigned_val U1 U2) in M1. apply mod_small in M1 as [q1 Q1]; [|easy]. apply mod_small in M2 as [q2 Q2]; [|easy].
    assert (Q : z - y = (q1 - q2) * 2 ^ n) by lia. assert (q1 - q2 = 0) by nia. lia.
  Qed.
  Lemma pad_fun (bs : list byte) p q : any_pad (zlen bs) p -> any_pad (zlen bs) q -> length p = length q.
  Proof.
    intros [H1 B1] [H2 B2]. assert (zlen p = zlen q); [|unfold zlen in *; lia]. assert (0 <= zlen p /\ 0 <= zlen q) by (unfold zlen; lia).
    apply Z.mod_divide in H1 as [a1 H1]; [|lia]. apply Z.mod_divide in H2 as [a2 H2]; [|lia]. lia.
  Qed.
  Lemma body_fun (bs p r cs q s : list byte) : zlen bs = zlen cs -> any_pad (zlen bs) p -> any_pad (zlen cs) q ->
    (bs ++ p) ++ r = (cs ++ q) ++ s -> bs = cs /\ r = s.
  Proof.
    intros LZ P Q EQ. rewrite <- !app_assoc in EQ. apply app_word in EQ as [-> EQ2]; [|unfold zlen in LZ; lia].
    destruct (app_word (pad_fun P Q) EQ2) as [_ ->]. easy.
  Qed.

  Lemma read_det :
    (forall t x b, xread ds um ix t x b -> orderly t -> forall x' b' r r', xread ds um ix t x' b' -> b ++ r = b' ++ r' -> x = x' /\ r = r') /\
    (forall d x b, xread_decl ds um ix d x b -> flatd d -> forall x' b' r r', xread_decl ds um ix d x' b' -> b ++ r = b' ++ r' -> x = x' /\ r = r') /\
    (forall t xs b, xread_all ds um ix t xs b -> flat t -> forall xs' b' r r', length xs = length xs' -> xread_all ds um ix t xs' b' -> b ++ r = b' ++ r' -> xs = xs' /\ r = r') /\
    (forall l xs b, xread_fields ds um ix l xs b -> Forall flatd l -> forall xs' b' r r', xread_fields ds um ix l xs' b' -> b ++ r = b' ++ r' -> xs = xs' /\ r = r').
  Proof.
    assert (S4 : forall y z v w r r', signed 4 y v -> signed 4 z w -> v ++ r = w ++ r' -> y = z /\ r = r').
    { intros y z v w r r' S1 S2 EQ. destruct (word4 (proj1 S1) (proj1 S2) EQ) as [-> ->]. split; [|easy]. apply (@signed_det_val 4 y z w); [lia|easy|easy]. }
    assert (S8 : forall y z v w r r', signed 8 y v -> signed 8 z w -> v ++ r = w ++ r' -> y = z /\ r = r').
    { intros y z v w r r' S1 S2 EQ. destruct (word8 (proj1 S1) (proj1 S2) EQ) as [-> ->]. split; [|easy]. apply (@signed_det_val 8 y z w); [lia|easy|easy]. }
    assert (U4 : forall y z v w r r', unsigned 4 y v -> unsigned 4 z w -> v ++ r = w ++ r' -> y = z /\ r = r').
    { intros y z v w r r' S1 S2 EQ. destruct (word4 (proj1 S1) (proj1 S2) EQ) as [-> ->]. split; [|easy]. exact (unsigned_val S1 S2). }
    assert (U8 : forall y z v w r r', unsigned 8 y v -> unsigned 8 z w -> v ++ r = w ++ r' -> y = z /\ r = r').
    { intros y z v w r r' S1 S2 EQ. destruct (word8 (proj1 S1) (proj1 S2) EQ) as [-> ->]. split; [|easy]. exact (unsigned_val S1 S2). }
    assert (LW : forall n lo y z v w r r', n = 8 \/ n = 16 -> low_bits n y v -> low_bits n z w -> lo <= y < lo + 2 ^ n -> lo <= z < lo + 2 ^ n -> v ++ r = w ++ r' -> y = z /\ r = r').
    { intros n lo y z v w r r' Hn S1 S2 B1 B2 EQ. destruct (word4 (low_len S1) (low_len S2) EQ) as [-> ->]. split; [|easy]. apply low_fun with n w lo; try easy. destruct Hn as [->| ->]; lia. }
    apply xread_decl_ind4.
    - intros z w S _ x' b' r r' X EQ. inversion X; subst. destruct (S4 _ _ _ _ _ _ S ltac:(eassumption) EQ) as [-> ->]. easy.
    - intros z w S _ x' b' r r' X EQ. inversion X; subst. destruct (U4 _ _ _ _ _ _ S ltac:(eassumption) EQ) as [-> ->]. easy.
    - intros z w S _ x' b' r r' X EQ. inversion X; subst. destruct (S8 _ _ _ _ _ _ S ltac:(eassumption) EQ) as [-> ->]. easy.
    - intros z w S _ x' b' r r' X EQ. inversion X; subst. destruct (U8 _ _ _ _ _ _ S ltac:(eassumption) EQ) as [-> ->]. easy.
    - intros z w S _ x' b' r r' X EQ. inversion X; subst. destruct (U4 _ _ _ _ _ _ S ltac:(eassumption) EQ) as [-> ->]. easy.
    - intros z w S _ x' b' r r' X EQ. inversion X; subst. destruct (U8 _ _ _ _ _ _ S ltac:(eassumption) EQ) as [-> ->]. easy.
    - intros w S _ x' b' r r' X EQ. inversion X as [| | | | | |? S'|z' ? S' NZ| | | | | | | | | | | | | |]; subst; destruct (U4 _ _ _ _ _ _ S S' EQ) as [E ->]; first [lia|easy].
    - intros z w S NZ _ x' b' r r' X EQ. inversion X as [| | | | | |? S'|z' ? S' NZ'| | | | | | | | | | | | | |]; subst; destruct (U4 _ _ _ _ _ _ S S' EQ) as [E ->]; easy.
    - intros z w B L _ x' b' r r' X EQ. inversion X; subst. edestruct (LW 8 (- 2 ^ 7)) with (6 := EQ) as [-> ->]; eauto; lia.
    - intros z w B L _ x' b' r r' X EQ. inversion X; subst. edestruct (LW 8 0) with (6 := EQ) as [-> ->]; eauto; lia.
    - intros z w B L _ x' b' r r' X EQ. inversion X; subst. edestruct (LW 16 (- 2 ^ 15)) with (6 := EQ) as [-> ->]; eauto; lia.
    - intros z w B L _ x' b' r r' X EQ. inversion X; subst. edestruct (LW 16 0) with (6 := EQ) as [-> ->]; eauto; lia.
    - intros l a z w Ha V S _ x' b' r r' X EQ. inversion X as [| | | | | | | | | | | |? a' z' ? Ha' V' S'|? ? z' ? IX LO RZ S' NM| | | | | | | |]; subst.
      + destruct (S4 _ _ _ _ _ _ S S' EQ) as [-> ->]. easy.
      + destruct (S4 _ _ _ _ _ _ S S' EQ) as [-> ->]. now destruct (NM a Ha).
    - intros l z z' w IX [(a & Ha & V) LO] RZ S NM _ x' b' r r' X EQ. inversion X as [| | | | | | | | | | | |? a1 z1 ? Ha' V' S'|? z1 z2 ? IX' [(a1 & Ha1 & V1) LO1] RZ' S' NM'| | | | | | | |]; subst.
      + destruct (S4 _ _ _ _ _ _ S S' EQ) as [-> ->]. now destruct (NM a1 Ha').
      + destruct (S4 _ _ _ _ _ _ S S' EQ) as [_ ->]. split; [|easy]. f_equal. pose proof (LO _ _ Ha1 V1). pose proof (LO1 _ _ Ha V). lia.
    - intros l xs bs _ IH O x' b' r r' X EQ. inversion X; subst. edestruct IH as [-> ->]; eauto.
    - intros t y specs dflt d z vs v arm a w bs M _ IHd N I1 I2 L _ IHa O x' b' r r' X EQ. destruct O as (OA & Ot & Oc & Od).
      inversion X as [| | | | | | | | | | | | | | |? ? ? ? d' z' ls lb arm' a' w' bs' M' XR' N' I1' I2' L' XA'|? ? ? d' z' arm' a' w' bs' M' XR' N' NL' XA'|? ? ? ? d' z' ls lb arm' a' w' bs' M' XR' RD' N' I1' I2' L' XA'| | | |]; subst; [| |congruence];
        rewrite <- !app_assoc in EQ; destruct (IHd (flat_orderly (flat_of Ot)) _ _ _ _ XR' EQ) as [-> EQ2]; rewrite (number_fun N N') in *.
      + rewrite <- (OA _ _ _ _ _ _ _ I1 I2 L I1' I2' L') in XA'. destruct (IHa (Oc _ _ I1) _ _ _ _ XA' EQ2) as [-> ->]. easy.
      + exfalso. apply (NL' v); [|easy]. unfold labels. apply in_flat_map. now exists (CaseSpec vs arm).
    - intros t y specs d z arm a w bs M _ IHd N NL _ IHa O x' b' r r' X EQ. destruct O as (OA & Ot & Oc & Od).
      inversion X as [| | | | | | | | | | | | | | |? ? ? ? d' z' ls lb arm' a' w' bs' M' XR' N' I1' I2' L' XA'|? ? ? d' z' arm' a' w' bs' M' XR' N' NL' XA'|? ? ? ? d' z' ls lb arm' a' w' bs' M' XR' RD' N' I1' I2' L' XA'| | | |]; subst; [| |congruence];
        rewrite <- !app_assoc in EQ; destruct (IHd (flat_orderly (flat_of Ot)) _ _ _ _ XR' EQ) as [-> EQ2]; rewrite (number_fun N N') in *.
      + exfalso. apply (NL lb); [|easy]. unfold labels. apply in_flat_map. now exists (CaseSpec ls arm').
      + destruct (IHa (Od _ eq_refl) _ _ _ _ XA' EQ2) as [-> ->]. easy.
    - intros t y specs dflt d z vs v arm a w bs M XT RD N I1 I2 L _ IHa O x' b' r r' X EQ. destruct O as (OA & Ot & Oc & Od).
      inversion X as [| | | | | | | | | | | | | | |? ? ? ? d' z' ls lb arm' a' w' bs' M' XR' N' I1' I2' L' XA'|? ? ? d' z' arm' a' w' bs' M' XR' N' NL' XA'|? ? ? ? d' z' ls lb arm' a' w' bs' M' XR' RD' N' I1' I2' L' XA'| | | |]; subst; [congruence|congruence|].
      rewrite <- !app_assoc in EQ. destruct (word4 (rfc_number N RD) (rfc_number N' RD') EQ) as [-> EQ2].
      pose proof (proj1 (@disc_det _ _) _ _ XT _ _ _ _ XR' N N' RD RD') as ->. rewrite (number_fun N N') in *.
      rewrite <- (OA _ _ _ _ _ _ _ I1 I2 L I1' I2' L') in XA'. destruct (IHa (Oc _ _ I1) _ _ _ _ XA' EQ2) as [-> ->]. easy.
    - intros n d x bs F _ IH O x' b' r r' X EQ. inversion X as [| | | | | | | | | | | | | | | | | |? ? ? ? F' X'|? ? ? ? ? F'|? ? ? ? ? F'|? ? ? ? ? F']; subst; pose proof (first_fun F F') as E; try discriminate.
      injection E as <-. now apply (IH (OD O F) _ _ _ _ X').
    - intros n y l x bs F _ IH _ x' b' r r' X EQ. inversion X as [| | | | | | | | | | | | | | | | | |? ? ? ? F'|? ? ? ? ? F' X'|? ? ? ? ? F'|? ? ? ? ? F']; subst; pose proof (first_fun F F') as E; try discriminate.
      injection E as <- <-. now apply (IH Logic.I _ _ _ _ X').
    - intros n y l x bs F _ IH _ x' b' r r' X EQ. inversion X as [| | | | | | | | | | | | | | | | | |? ? ? ? F'|? ? ? ? ? F'|? ? ? ? ? F' X'|? ? ? ? ? F']; subst; pose proof (first_fun F F') as E; try discriminate.
      injection E as <- <-. now apply (IH (OS F) _ _ _ _ X').
    - intros n y l x bs F _ IH _ x' b' r r' X EQ. inversion X as [| | | | | | | | | | | | | | | | | |? ? ? ? F'|? ? ? ? ? F'|? ? ? ? ? F'|? ? ? ? ? F' X']; subst; pose proof (first_fun F F') as E; try discriminate.
      injection E as <- <-. now apply (IH (OU F) _ _ _ _ X').
    - intros t y x bs _ IH O x' b' r r' X EQ. inversion X; subst. eapply IH; eauto. exact (flat_orderly (flat_of O)).
    - intros t y v xs bs V _ IH O x' b' r r' X EQ. inversion X as [|? ? ? xs' ? V' XA| | | | | | | ]; subst. pose proof (value_is_fun V V') as LZ.
      assert (LN : length xs = length xs') by (unfold zlen in LZ; lia). destruct (IH (flat_array O) _ _ _ _ LN XA EQ) as [-> ->]. easy.
    - intros t y max xs n bs Wi UN _ IH O x' b' r r' X EQ. inversion X as [| |? ? ? xs' n' bs' Wi' UN' XA| | | | | | ]; subst. rewrite <- !app_assoc in EQ.
      destruct (U4 _ _ _ _ _ _ UN UN' EQ) as [LZ EQ2]. assert (LN : length xs = length xs') by (unfold zlen in LZ; lia).
      destruct (IH (flat_vararray O) _ _ _ _ LN XA EQ2) as [-> ->]. easy.
    - intros y v bs p V P O x' b' r r' X EQ. inversion X as [| | |? ? bs' p' V' P'| | | | | ]; subst. pose proof (value_is_fun V V') as LZ. destruct (body_fun LZ P P' EQ) as [-> ->]. easy.
    - intros y max n bs p Wi UN P O x' b' r r' X EQ. inversion X as [| | | |? ? n' bs' p' Wi' UN' P'| | | | ]; subst. rewrite <- (app_assoc n), <- (app_assoc n') in EQ.
      destruct (U4 _ _ _ _ _ _ UN UN' EQ) as [LZ EQ2]. destruct (body_fun LZ P P' EQ2) as [-> ->]. easy.
    - intros y max n bs p U Wi UN P O x' b' r r' X EQ. inversion X as [| | | | |? ? n' bs' p' ? Wi' UN' P'| | | ]; subst. rewrite <- (app_assoc n), <- (app_assoc n') in EQ.
      destruct (U4 _ _ _ _ _ _ UN UN' EQ) as [LZ EQ2]. destruct (body_fun LZ P P' EQ2) as [-> ->]. easy.
    - intros t y w S O x' b' r r' X EQ. inversion X as [| | | | | |? ? ? S'|? ? ? z' ? bs' S' NZ' XX| ]; subst.
      + destruct (U4 _ _ _ _ _ _ S S' EQ) as [_ ->]. easy.
      + rewrite <- app_assoc in EQ. destruct (U4 _ _ _ _ _ _ S S' EQ) as [E _]. lia.
    - intros t y x z w bs S NZ _ IH O x' b' r r' X EQ. inversion X as [| | | | | |? ? ? S'|? ? ? z' ? bs' S' NZ' XX| ]; subst.
      + rewrite <- app_assoc in EQ. destruct (U4 _ _ _ _ _ _ S S' EQ) as [E _]. lia.
      + rewrite <- !app_assoc in EQ. destruct (U4 _ _ _ _ _ _ S S' EQ) as [_ EQ2]. destruct (IH (flat_orderly (flat_option O)) _ _ _ _ XX EQ2) as [-> ->]. easy.
    - intros _ x' b' r r' X EQ. inversion X; subst. easy.
    - intros t _ xs' b' r r' LN X EQ. inversion X; subst; [easy|discriminate].
    - intros t x xs b bs _ IH1 _ IH2 O xs' b' r r' LN X EQ. inversion X as [|? x1 xs1 b1 bs1 X1 X2]; subst; [discriminate|]. rewrite <- !app_assoc in EQ.
      destruct (IH1 (flat_orderly O) _ _ _ _ X1 EQ) as [-> EQ2]. injection LN as LN. destruct (IH2 O _ _ _ _ LN X2 EQ2) as [-> ->]. easy.
    - intros _ xs' b' r r' X EQ. inversion X; subst. easy.
    - intros d l x xs b bs _ IH1 _ IH2 O xs' b' r r' X EQ. inversion O as [|? ? O1 O2]; subst. inversion X as [|? ? x1 xs1 b1 bs1 X1 X2]; subst. rewrite <- !app_assoc in EQ.
      destruct (IH1 O1 _ _ _ _ X1 EQ) as [-> EQ2]. destruct (IH2 O2 _ _ _ _ X2 EQ2) as [-> ->]. easy.
  Qed.
End Det.

Lemma one_reading cfg ds um ix n td x x' bs : supported_defs cfg ds -> first n (type_defs ds) td -> is_typedef td = false ->
  xread ds um ix (TsIdent n) x bs -> xread ds um ix (TsIdent n) x' bs -> x = x'.
Proof.
  intros SD F N X X'. apply (proj1 (@read_det cfg ds um ix (@sd_items _ _ SD)) _ _ _ X) with (b' := bs) (r := []) (r' := []); [|easy|easy]. cbn.
  destruct td as [d|y l|y l|y u]; [discriminate| | |].
  - destruct (enum_impl_std_trait cfg) eqn:st; eexists; [eapply tk_std|eapply tk_enum]; eauto.
  - eexists. eapply tk_struct; eauto.
  - eexists. eapply tk_union; eauto.
Qed.

(** ** The inputs a generated program accepts *)
Lemma c104 fl checks src ds : let cfg := main_config fl checks in
  greturns (fun n => parse n src) (GOk ds) -> definitions_ok cfg ds -> exact_defs cfg ds ->
  exists f E, generated cfg ds f E /\ compiles f /\
    forall x td, first x (type_defs ds) td -> is_typedef td = false ->
      (forall y l, td = TdEnum y l -> enum_impl_std_trait cfg = false \/ dense ds l) ->
      exists y, camel_of x y /\ forall bs v,
        returns (fun n => from_bytes n E (TRef y) bs) (Ok v) <->
        exists xval, xread (map def_without_max ds) (union_impl_union cfg) (enum_impl_indexer cfg) (TsIdent x) xval bs /\ speaks E (TRef y) v xval.
Proof.
  intros cfg P DO EX. pose proof (supported_main P DO : supported_defs cfg ds) as SD. destruct (w_exists SD) as (f & E & GE & C). exists f, E. split; [easy|]. split; [easy|].
  intros x td F N EN. exists (camel x). split; [apply camel_of_camel|]. intros bs v. split.
  - intros (_ & n & H). exact (read_sound SD EX GE F N EN (H n (Nat.le_refl n))).
  - intros (xval & X & [(b & R) S]). destruct (read_complete SD EX GE F N EN X) as (v' & B & [_ S']).
    destruct (S b R) as [_ S1], (S' b R) as [_ S2]. now rewrite (returns_ok_inj S1 S2).
Qed.

(** ** Two programs *)
Section Two.
  Variables (cfg cfg' : config) (ds : list definition).
  Hypothesis SD : supported_defs cfg ds.
  Hypothesis SD' : supported_defs cfg' ds.
  Hypothesis EX : exact_defs cfg ds.
  Hypothesis EX' : exact_defs cfg' ds.
  Variables (f f' : file) (E E' : env).
  Hypothesis GE : generated cfg ds f E.
  Hypothesis GE' : generated cfg' ds f' E'.
  Variables (x : string) (td : typedef).
  Hypothesis F : first x (type_defs ds) td.
  Hypothesis N : is_typedef td = false.
  Hypothesis EN : forall y l, td = TdEnum y l -> (enum_impl_std_trait cfg = false /\ enum_impl_std_trait cfg' = false) \/ dense ds l.

  Let EN1 : forall y l, td = TdEnum y l -> enum_impl_std_trait cfg = false \/ dense ds l.
  Proof. intros y l H. destruct (EN H) as [[]|]; auto. Qed.
  Let EN2 : forall y l, td = TdEnum y l -> enum_impl_std_trait cfg' = false \/ dense ds l.
  Proof. intros y l H. destruct (EN H) as [[]|]; auto. Qed.

  Lemma more_liberal n bs v : (union_impl_union cfg = true -> union_impl_union cfg' = true) -> (enum_impl_indexer cfg = true -> enum_impl_indexer cfg' = true) ->
    from_bytes n E (TRef (camel x)) bs = Ok v ->
    exists v' xval, returns (fun n => from_bytes n E' (TRef (camel x)) bs) (Ok v') /\ speaks E (TRef (camel x)) v xval /\ speaks E' (TRef (camel x)) v' xval.
  Proof.
    intros HU HI H. destruct (read_sound SD EX GE F N EN1 H) as (xval & X & S).
    apply (proj1 (read_more _ HU HI)) in X. destruct (read_complete SD' EX' GE' F N EN2 X) as (v' & B & S'). now exists v', xval.
  Qed.
  Lemma same_reading n m bs v v' : from_bytes n E (TRef (camel x)) bs = Ok v -> from_bytes m E' (TRef (camel x)) bs = Ok v' ->
    exists xval, speaks E (TRef (camel x)) v xval /\ speaks E' (TRef (camel x)) v' xval.
  Proof.
    intros H H'. destruct (read_sound SD EX GE F N EN1 H) as (xval & X & S). destruct (read_sound SD' EX' GE' F N EN2 H') as (xval' & X' & S').
    exists xval. split; [easy|]. assert (xval = xval') as ->; [|easy].
    refine (one_reading (um := true) (ix := true) (supported_max SD) (first_max F) _ (proj1 (read_more _ _ _) _ _ _ X) (proj1 (read_more _ _ _) _ _ _ X')); try easy. now destruct td.
  Qed.
End Two.

Lemma c105 fl fl' checks checks' src ds f f' E E' : let cfg := main_config fl checks in let cfg' := main_config fl' checks' in
  greturns (fun n => parse n src) (GOk ds) -> definitions_ok cfg ds -> definitions_ok cfg' ds -> exact_defs cfg ds -> exact_defs cfg' ds ->
  generated cfg ds f E -> generated cfg' ds f' E' ->
  (union_impl_union cfg = true -> union_impl_union cfg' = true) -> (enum_impl_indexer cfg = true -> enum_impl_indexer cfg' = true) ->
  forall x td, first x (type_defs ds) td -> is_typedef td = false ->
    (forall y l, td = TdEnum y l -> (enum_impl_std_trait cfg = false /\ enum_impl_std_trait cfg' = false) \/ dense ds l) ->
    exists y, camel_of x y /\ forall n bs v, from_bytes n E (TRef y) bs = Ok v ->
      exists v' xval, returns (fun n => from_bytes n E' (TRef y) bs) (Ok v') /\ speaks E (TRef y) v xval /\ speaks E' (TRef y) v' xval.
Proof.
  intros cfg cfg' P DO DO' EX EX' GE GE' HU HI x td F N EN. exists (camel x). split; [apply camel_of_camel|]. intros n bs v.
  exact (more_liberal (supported_main P DO) (supported_main P DO') EX EX' GE GE' F N EN HU HI).
Qed.

Lemma c106 fl fl' checks checks' src ds f f' E E' : let cfg := main_config fl checks in let cfg' := main_config fl' checks' in
  greturns (fun n => parse n src) (GOk ds) -> definitions_ok cfg ds -> definitions_ok cfg' ds -> exact_defs cfg ds -> exact_defs cfg' ds ->
  generated cfg ds f E -> generated cfg' ds f' E' ->
  forall x td, first x (type_defs ds) td -> is_typedef td = false ->
    (forall y l, td = TdEnum y l -> (enum_impl_std_trait cfg = false /\ enum_impl_std_trait cfg' = false) \/ dense ds l) ->
    exists y, camel_of x y /\ forall n m bs v v', from_bytes n E (TRef y) bs = Ok v -> from_bytes m E' (TRef y) bs = Ok v' ->
      exists xval, speaks E (TRef y) v xval /\ speaks E' (TRef y) v' xval.
Proof.
  intros cfg cfg' P DO DO' EX EX' GE GE' x td F N EN. exists (camel x). split; [apply camel_of_camel|]. intros n m bs v v'.
  apply (same_reading (supported_main P DO) (supported_main P DO') EX EX' GE GE' F N EN).
Qed.
