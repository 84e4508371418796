(** Input accepted by a generated type is normalised by writing it again. *)
From Coq Require Import Permutation.
From Verif Require Import Base RustTypes SpecXdr SpecTypes XdrFacts SpecMisc SerModel DeModel SpecDecode DecProofs CodecProofs NormProofs CodecLemmas
  Nom NomFacts Keyword Ast ParserModel SpecGrammar SpecParse
  ParseSound ParserLemmas ConstProofs CaseModel SpecCase CaseProofs RustAst GenModel SpecGen SpecItems GenFacts GenTotal GenPanic GenLemmas
  SpecXdl GenSem SpecWire WireBase WireEnum WireBack WireMain SpecEmit EmitBase EmitProofs EmitFlags EmitItems EmitNames EmitRun.
Set Implicit Arguments.
Unset Strict Implicit.
Local Open Scope list_scope.

(** ** Numbers of constants are in range *)
Lemma accumulate_range k radix s : forall t a z, kind_min k <= a <= kind_max k -> accumulate k radix s a t = Some z -> kind_min k <= z <= kind_max k.
Proof.
  induction t as [|c t IH]; cbn; intros a z R H; [now injection H as <-|].
  destruct (checked k (a * radix)) as [m|]; [|discriminate]. destruct (to_digit radix c) as [d|]; [|discriminate].
  unfold checked in H. destruct ((kind_min k <=? m + s * d) && (m + s * d <=? kind_max k)) eqn:e; [|discriminate].
  apply IH in H; [easy|]. lia.
Qed.
Lemma radix_range k radix t z : from_str_radix k radix t = Some z -> kind_min k <= z <= kind_max k.
Proof.
  assert (Z0 : kind_min k <= 0 <= kind_max k) by (destruct k; cbn; lia).
  unfold from_str_radix. destruct t as [|c [|c' t]]; [discriminate| |].
  - destruct (_ || _); [discriminate|]. now apply accumulate_range.
  - destruct (Ascii.eqb c _); [now apply accumulate_range|]. destruct (_ && _); now apply accumulate_range.
Qed.
Lemma constant_range k c z : constant_value k c = GOk z -> kind_min k <= z <= kind_max k.
Proof.
  unfold constant_value. destruct c; match goal with |- context [from_str_radix ?k ?r ?t] => destruct (from_str_radix k r t) eqn:e end; try discriminate;
    intros [= <-]; now apply radix_range in e.
Qed.
Lemma name_range cx k : forall n x z, resolve_name cx n k x = GOk z -> kind_min k <= z <= kind_max k.
Proof.
  induction n as [|n IH]; cbn [resolve_name]; intros x z H; [discriminate|]. cbv zeta in H.
  assert (V : forall v z, match v with VConst c => constant_value k c | VIdent i => resolve_name cx n k i end = GOk z -> kind_min k <= z <= kind_max k).
  { intros [c|i] z' E; [now apply constant_range in E|now apply IH in E]. }
  assert (M : match find_member x (typedefs cx) with Some v => match v with VConst c => constant_value k c | VIdent i => resolve_name cx n k i end
    | None => GErr (GNotFoundIdentifier x) end = GOk z -> kind_min k <= z <= kind_max k) by (destruct (find_member _ _); [apply V|discriminate]).
  destruct (assoc String.eqb x (constants cx)) as [v|]; [|now apply M].
  destruct (match v with VConst c => constant_value k c | VIdent i => resolve_name cx n k i end) as [z'|e| |] eqn:E; try discriminate; [|now apply M].
  injection H as <-. now apply V with v.
Qed.
Lemma value_range cx n k v z : resolve_value cx n k v = GOk z -> kind_min k <= z <= kind_max k.
Proof. destruct v; cbn; [apply constant_range|apply name_range]. Qed.

(** ** Tables built from one list *)
Lemma swap_assoc (l : list (string * Z)) z x : NoDup (map fst l) -> assoc Z.eqb z (map (fun p => (snd p, fst p)) l) = Some x ->
  assoc String.eqb x l = Some z.
Proof.
  intros N H. apply assoc_in_nodup; [easy|]. clear N. induction l as [|[y w] l IH]; cbn in *; [discriminate|].
  destruct (Z.eqb_spec z w) as [->|]; [injection H as ->; now left|right; auto].
Qed.

(** the tables of an indexer come from one list of variants and numbers *)
Definition paired (ix : indexer_impl) (items : list (vtoken * Z)) : Prop :=
  ix_names ix = map (fun p => (snd p, fst p)) items /\ map (fun q => (fst (fst q), snd q)) (ix_index ix) = items /\
  NoDup (map fst items) /\ Forall (fun p => i32_range (snd p)) items /\
  match ix_other ix with
  | None => True
  | Some v => exists z rest, items = (v, z) :: rest
  end.

Lemma indexer_rev vs ix T items : indexer_sem vs ix = Some T -> paired ix items -> NoDup (map fst vs) ->
  (forall p, In p vs -> fold_right (fun t P => reversible t /\ P) True (snd p)) -> reversible T.
Proof.
  intros H (PN & PI & ND & R & OT) NV V. unfold indexer_sem in H. apply obind_some in H as (names & HN & H). apply obind_some in H as (index & HI & H).
  apply obind_some in H as (other & HO & H). apply guard_some in H as [_ H]. injection H as <-. cbn [reversible].
  assert (II : map (fun p => (TokId (fst p), snd p)) index = items).
  { rewrite <- PI. clear - HI. revert index HI. induction (ix_index ix) as [|[[v paren] z] l IH]; cbn; intros index HI; [now injection HI as <-|].
    apply obind_some in HI as (p & HP & HI). apply obind_some in HI as (ps & HI & [= <-]). cbn. rewrite (IH _ HI). f_equal.
    apply obind_some in HP as (x & Hx & HP). destruct v as [|y]; [discriminate|]. injection Hx as ->.
    apply obind_some in HP as (ts & _ & HP). apply guard_some in HP as [_ [= <-]]. easy. }
  assert (NN : names = map (fun p => (snd p, fst p)) index).
  { rewrite PN, <- II, map_map in HN. cbn in HN. clear - HN. revert names HN. induction index as [|[x z] l IH]; cbn; intros names HN; [now injection HN as <-|].
    destruct (omap _ _) as [m|] eqn:E; [|discriminate]. cbn in HN. injection HN as <-. f_equal. now apply IH. }
  assert (NI : NoDup (map fst index)).
  { rewrite <- II, map_map in ND. cbn in ND. rewrite <- (map_map fst TokId) in ND. now apply NoDup_map_inv with (1 := ND). }
  split.
  - split; [easy|]. intros z name b W _. unfold with_dflt in W. destruct (assoc Z.eqb z names) as [nm|] eqn:EA.
    + injection W as W. subst nm. rewrite NN in EA. exists z. split; [now apply swap_assoc|]. split.
      * apply EmitRun.assoc_mem in EA as K. destruct K as [z' K]. pose proof (swap_assoc NI EA) as A2.
        assert (K2 : In (name, z) index).
        { clear - A2. induction index as [|[y w] l IH]; cbn in *; [discriminate|]. destruct (String.eqb_spec name y) as [ey|]; [subst y; injection A2 as A2; subst w; now left|right; auto]. }
        rewrite Forall_forall in R. apply (R (TokId name, z)). rewrite <- II. apply in_map_iff. now exists (name, z).
      * rewrite NN, EA. easy.
    + subst other. destruct (ix_other ix) as [v|]; [|discriminate]. destruct OT as (z0 & rest & EI). rewrite EI in II.
      destruct index as [|[y w] index]; [discriminate|]. cbn in II. injection II as <- -> II. cbn in HO. injection HO as ->.
      exists z0. split; [cbn; now rewrite String.eqb_refl|]. split.
      * rewrite EI in R. apply Forall_inv in R. exact R.
      * rewrite NN. cbn. now rewrite Z.eqb_refl.
  - apply (fold_all2 (P := fun (_ : string) ts => fold_right (fun t P => reversible t /\ P) True ts)). intros x ts Hp. exact (V _ Hp).
Qed.

(** ** What the generator puts in the tables *)
Definition numbers (p : union_parts) : list (vtoken * Z) := map (fun q => (snd q, fst q)) (up_names p).
Definition tidy (p : union_parts) : Prop :=
  map (fun q => (fst (fst q), snd q)) (up_index p) = numbers p /\
  Forall (fun q => i32_range (snd q)) (numbers p) /\ (NoDup (map va_name (up_specs p)) -> NoDup (map fst (numbers p))).

Lemma nodup_head {A} (l m : list A) : NoDup (l ++ m) -> NoDup l.
Proof. induction l; cbn; [constructor|]. inversion 1; subst. constructor; [|auto]. intros K. apply H2. apply in_or_app. now left. Qed.
Lemma nodup_snoc {A} (l : list A) a : NoDup l -> ~ In a l -> NoDup (l ++ [a]).
Proof. intros N K. apply NoDup_rev in N. rewrite <- (rev_involutive (l ++ [a])). apply NoDup_rev. rewrite rev_app_distr. cbn. constructor; [|easy]. now rewrite <- in_rev. Qed.
Lemma nodup_last {A} (l m : list A) a : NoDup (l ++ m ++ [a]) -> ~ In a l.
Proof. induction l as [|b l IH]; cbn; [easy|]. inversion 1; subst. intros [->|K]; [|now apply IH]. apply H2. apply in_or_app. right. apply in_or_app. right. now left. Qed.

Lemma tidy_add (p : union_parts) specs fill va z paren nm vals dv cd : parts_named p -> tidy p -> specs = up_specs p ++ fill ++ [va] -> va_name va = nm -> i32_range z ->
  tidy (UnionParts specs (up_names p ++ [(z, nm)]) (up_index p ++ [(nm, paren, z)]) vals dv cd).
Proof.
  intros [PN _] (T1 & T2 & T3) -> E R. unfold tidy, numbers in *. cbn [up_specs up_names up_index]. rewrite !map_app, T1. cbn. split; [easy|]. split.
  - apply Forall_app. split; [easy|]. now apply Forall_cons; [|apply Forall_nil].
  - intros N. rewrite E in N. apply nodup_snoc; [apply T3; now apply nodup_head in N|].
    apply nodup_last in N. intros K. apply N. rewrite map_map in K. cbn in K.
    destruct (PN nm (or_introl K)) as (va' & Hva & E'). rewrite <- E'. now apply in_map.
Qed.

Lemma values_tidy cx n c : forall l s acc p, union_values cx n c s l acc = GOk p -> parts_named acc -> tidy acc ->
  (forall q, In q l -> 0 <= fst (fst q) < 2 ^ 32) -> tidy p.
Proof.
  induction l as [|[[e d] v] l IH]; intros s acc p H N T R; [cbn [union_values] in H; now injection H as <-|].
  pose proof H as H0. cbn [union_values] in H.
  apply gbind_ok in H as (fill & HF & H). apply gbind_ok in H as (ct & HC & H). apply gbind_ok in H as (bv & HB & H).
  apply gbind_ok in H as (s' & HS & H). apply IH in H; [exact H| | |].
  - (* one step of values_named *)
    assert (ONE : union_values cx n c s [((e, d), v)] acc = GOk
      (UnionParts (up_specs acc ++ fill ++ [ct_variant ct]) (up_names acc ++ [(as_i32 e, ct_name ct)])
        (up_index acc ++ [(ct_name ct, ct_paren ct, as_i32 e)]) (up_values acc ++ bv)
        (opt_first (up_default acc) (Some (ct_name ct, ct_args ct))) (Some (ct_cond ct)))).
    { cbn [union_values]. rewrite HF. cbn [gbind]. rewrite HC. cbn [gbind]. rewrite HB. cbn [gbind]. now rewrite HS. }
    now apply (values_named ONE).
  - eapply tidy_add; try eassumption; [reflexivity|now destruct (case_shape HC)|]. apply as_i32_range. apply (R _ (or_introl eq_refl)).
  - intros q Hq. apply R. now right.
Qed.
Lemma bool_tidy cx n c b specs acc p : bool_case cx n c b specs acc = GOk p -> parts_named acc -> tidy acc -> tidy p.
Proof.
  unfold bool_case. cbv zeta. intros H N T. destruct (find _ specs) as [[vs d]|].
  - destruct (find _ vs) as [v|]; [|discriminate]. apply gbind_ok in H as (ct & HC & H). injection H as <-.
    apply tidy_add with (fill := []) (va := ct_variant ct); try easy; [now destruct (case_shape HC)|]. unfold i32_range. destruct b; lia.
  - destruct (union_complement_index _); [|now injection H as <-]. apply gbind_ok in H as (r & HR & H). injection H as <-.
    destruct T as (T1 & T2 & T3). split; [exact T1|]. split; [exact T2|]. cbn [up_specs]. intros K. apply T3. rewrite map_app in K. now apply nodup_head in K.
Qed.

Lemma union_paired cx n x c specs i ix : convert_union_token cx n x (UBody c specs None) = GOk i -> un_indexer i = Some ix ->
  NoDup (map va_name (un_variants i)) -> exists items, paired ix items.
Proof.
  intros C EX. unfold convert_union_token in C. apply gbind_ok in C as (nm & _ & C).
  apply gbind_ok in C as (t & _ & C). apply gbind_ok in C as (p & HP & C). cbn [union_default gbind] in C. cbv zeta in C.
  destruct (up_default p) as [dv|]; [|discriminate]. injection C as <-. cbn [un_indexer un_union un_variants] in *. intros ND.
  assert (N0 : parts_named no_parts) by (split; [intros nm' [[]|[]]|easy]).
  assert (Y0 : tidy no_parts) by (split; [easy|split; [constructor|constructor]]).
  assert (RV : forall vals, gmap (fun s => match s with CaseSpec vs d => gmap (fun v => z <~ resolve_value cx n KU32 v;; GOk (z, d, v)) vs end) specs = GOk vals ->
     forall q, In q (sort_by (fun p => fst (fst p)) (concat vals)) -> 0 <= fst (fst q) < 2 ^ 32).
  { intros vals HV q Hq. apply sort_by_in in Hq. apply in_concat in Hq as (l & Hl & Hq). apply gmap_ok in HV. destruct (Forall2_in_r HV Hl) as ([vs d] & _ & E).
    apply gmap_ok in E. destruct (Forall2_in_r E Hq) as (v & _ & E'). apply gbind_ok in E' as (z & Hz & [= <-]). apply value_range in Hz. cbn in *. lia. }
  assert (TP : tidy p).
  { destruct t; try discriminate HP.
    - apply gbind_ok in HP as (vals & HV & HP). apply values_tidy in HP; try easy. now apply RV.
    - apply gbind_ok in HP as (p0 & H0 & HP). apply gbind_ok in HP as (p1 & H1 & HP). injection HP as <-.
      pose proof (bool_tidy H0 N0 Y0) as K0. pose proof (bool_named H0 N0) as M0. exact (bool_tidy H1 M0 K0).
    - apply gbind_ok in HP as (vals & HV & HP). apply values_tidy in HP; try easy. now apply RV. }
  destruct (union_impl_indexer _); [|discriminate]. injection EX as <-. destruct TP as (T1 & T2 & T3). exists (numbers p).
  unfold paired. cbn [ix_names ix_index ix_other]. split; [|split; [exact T1|split; [now apply T3|split; [exact T2|easy]]]].
  unfold numbers. rewrite map_map. rewrite <- (map_id (up_names p)) at 1. apply map_ext. now intros [].
Qed.

(** enums: the written numbers are those of the listed members *)
Lemma enum_items cfg ds n x l e : convert_enum_token (ctx cfg ds) n x l = GOk e -> NoDup (enum_names e) ->
  exists items, NoDup (map fst items) /\ (forall p, In p items -> In p (en_values e)) /\ nonempty_list items = true /\
    (forall asr, en_as_ref e = Some asr -> asr = items) /\
    (forall tf, en_try_from e = Some tf -> tf = map (fun p => (snd p, fst p)) items) /\
    (forall ix, en_indexer e = Some ix -> Forall (fun p => i32_range (snd p)) (en_values e) -> exists items, paired ix items).
Proof.
  intros H ND. unfold convert_enum_token in H. apply gbind_ok in H as (idx & _ & H). cbv zeta in H.
  apply gbind_ok in H as (nm & _ & H). apply gbind_ok in H as (vs & HV & H). apply gbind_ok in H as (items & HI & H). apply gmap_ok in HI.
  destruct (enum_values_back HV) as (_ & I & N1 & _).
  assert (EI : items = map shown (sort_by fst idx)).
  { apply Forall2_eq_map. eapply Forall2_impl_in; [exact HI|]. cbn. intros p q _ _ H'. apply gbind_ok in H' as (y & Hy & H').
    apply camel_back in Hy as [-> _]. now injection H' as <-. }
  assert (NI : NoDup (map fst vs) -> NoDup (map fst items)).
  { intros K. specialize (N1 K). rewrite EI. rewrite map_map in *. exact N1. }
  assert (II : forall p, In p items -> In p vs).
  { intros p Hp. rewrite EI in Hp. apply in_map_iff in Hp as (q & <- & Hq). now apply I. }
  clear EI N1. exists items. destruct items as [|[d z] rest] eqn:EI; [discriminate|]. rewrite <- EI in *. injection H as <-.
  cbn [en_values en_as_ref en_try_from en_indexer enum_names] in *. unfold enum_names in ND. cbn [en_values] in ND.
  split; [now apply NI|]. split; [easy|]. split; [now rewrite EI|]. split; [|split].
  - intros asr K. destruct (enum_impl_std_trait _); congruence.
  - intros tf K. destruct (enum_impl_std_trait _); congruence.
  - intros ix K R. destruct (enum_impl_indexer _); [|discriminate]. injection K as <-. exists (map (fun p => (TokId (fst p), snd p)) items).
    unfold paired. cbn [ix_names ix_index ix_other]. rewrite !map_map. cbn. split; [easy|]. split; [easy|]. split; [|split].
    + rewrite <- (map_map fst TokId). apply (FinFun.Injective_map_NoDup (f := TokId)); [congruence|now apply NI].
    + apply Forall_forall. intros p Hp. apply in_map_iff in Hp as (q & <- & Hq). rewrite Forall_forall in R. now apply R, II.
    + rewrite EI. cbn. eauto.
Qed.

Section File.
  Variables (cfg : config) (ds : list definition) (n : nat) (f : file).
  Hypothesis G : gen_code n cfg ds = GOk f.
  Hypothesis CO : compiles f.
  Hypothesis ND : union_impl_indexer cfg = true -> no_default_arms ds.

  Lemma ty_rev t : forall T, ty_sem f t = Some T -> reversible T.
  Proof.
    induction t as [| | | | |x|t IHt len cast|t IHt| |t IHt|t IHt|]; intros T H; cbn in H; try (injection H as <-; cbn; easy).
    - destruct (find_item f x); [|discriminate]. now injection H as <-.
    - apply obind_some in H as (T1 & H1 & H). apply obind_some in H as (k & _ & [= <-]). cbn. auto.
    - destruct (ty_sem f t) as [T1|]; [|discriminate]. injection H as <-. cbn. auto.
    - destruct (ty_sem f t) as [T1|]; [|discriminate]. injection H as <-. cbn. auto.
    - destruct (ty_sem f t) as [T1|]; [|discriminate]. injection H as <-. cbn. auto.
  Qed.
  Lemma tys_rev ts Ts : omap (ty_sem f) ts = Some Ts -> fold_right (fun t P => reversible t /\ P) True Ts.
  Proof. intros H. apply fold_all. intros T HT. destruct (omap_in H HT) as (t & _ & E'). now apply ty_rev with t. Qed.

  Lemma compiled i : In i (fi_types f) -> item_compiles i.
  Proof. destruct CO as (_ & _ & F & _). rewrite Forall_forall in F. apply F. Qed.

  Lemma signed_rev e T : In (IEnum e) (fi_types f) -> signed_sem e = Some T -> reversible T.
  Proof.
    intros HI H. destruct (compiled HI) as (NN & _ & _ & RG).
    assert (He : In e (enums f)) by (apply in_flat_map; exists (IEnum e); split; [easy|now left]).
    destruct (enum_item_from G He) as (x & y & l & _ & C). destruct (enum_items C NN) as (items & NI & II & _ & AR & TF & _).
    unfold signed_sem in H. destruct (en_as_ref e) as [asr|]; [|discriminate]. destruct (en_try_from e) as [tf|]; [|discriminate].
    rewrite (AR _ eq_refl), (TF _ eq_refl) in H. clear AR TF.
    apply obind_some in H as (zs & HZ & H). apply obind_some in H as (arms & HA & H). apply guard_some in H as [_ [= <-]]. cbn.
    intros z i W. unfold with_dflt in W |- *. destruct (assoc Z.eqb z arms) as [i'|] eqn:EA; [|discriminate]. injection W as ->.
    assert (K : exists nm, assoc String.eqb nm items = Some z /\ position nm (enum_names e) = Some i /\ In (nm, z) items).
    { assert (K : exists nm, assoc Z.eqb z (map (fun p => (snd p, fst p)) items) = Some nm /\ position nm (enum_names e) = Some i /\ In (nm, z) items).
      { clear - HA EA. revert arms HA EA. induction items as [|[nm w] items IH]; cbn; intros arms HA EA; [injection HA as <-; discriminate|].
        destruct (position nm (enum_names e)) as [j|] eqn:P; [|discriminate]. cbn in HA. destruct (omap _ _) as [m|] eqn:O; [|discriminate]. injection HA as <-.
        cbn in EA. destruct (Z.eqb_spec z w) as [->|].
        - injection EA as ->. exists nm. split; [easy|]. split; [easy|now left].
        - destruct (IH _ eq_refl EA) as (nm' & A & P' & I'). exists nm'. split; [easy|]. split; [easy|now right]. }
      destruct K as (nm & A & P & I'). exists nm. split; [now apply swap_assoc|easy]. }
    destruct K as (nm & A & P & I'). exists z. split; [|split; [|now rewrite EA]].
    - apply position_nth in P. apply omap_some in HZ. clear - HZ P A. revert i P. induction HZ as [|x w l m h HZ IH]; intros [|i] P; cbn in *; try discriminate.
      + injection P as ->. now rewrite <- h, A.
      + now apply IH.
    - rewrite Forall_forall in RG. assert (K : In z (map snd (en_values e))) by (apply in_map_iff; exists (nm, z); split; [easy|now apply II]).
      apply RG in K. unfold i32_range. lia.
  Qed.

  Lemma field_rev a t T : field_sem f a t = Some T -> reversible T.
  Proof.
    destruct a; cbn.
    - apply ty_rev.
    - destruct t as [| | | | | |t len cast| | | | |]; try discriminate. destruct t as [[] []| | | | | | | | | | |]; try discriminate.
      destruct (array_len f len cast); [|discriminate]. now intros [= <-].
    - destruct t as [| | | | | | |t| | | |]; try discriminate. destruct t as [[] []| | | | | | | | | | |]; try discriminate. now intros [= <-].
    - destruct t as [| | | | |s| | | | | |]; try discriminate. unfold find_enum. destruct (find_item f s) as [[| e| |]|] eqn:FI; try discriminate.
      apply signed_rev. unfold find_item in FI. now apply find_some in FI.
  Qed.

  Lemma variant_tokens vs ts : omap token_id (map va_name vs) = Some ts -> ts = variant_names vs /\ map va_name vs = map TokId ts.
  Proof.
    revert ts. induction vs as [|va vs IH]; cbn; intros ts H; [now injection H as <-|].
    destruct (va_name va) as [|y] eqn:E; [discriminate|]. cbn in H. destruct (omap _ _) as [m|]; [|discriminate]. injection H as <-.
    destruct (IH _ eq_refl) as [-> E2]. cbn. now rewrite E2.
  Qed.
  Lemma variants_named {A} (g : variant -> option (string * A)) vs m :
    (forall va x a, g va = Some (x, a) -> va_name va = TokId x) -> omap g vs = Some m ->
    map fst m = variant_names vs /\ map va_name vs = map TokId (map fst m).
  Proof.
    intros Hg. revert m. induction vs as [|va vs IH]; cbn; intros m H; [now injection H as <-|].
    destruct (g va) as [[x a]|] eqn:E; [|discriminate]. cbn in H. destruct (omap g vs) as [m'|]; [|discriminate]. injection H as <-.
    destruct (IH _ eq_refl) as [E1 E2]. rewrite (Hg _ _ _ E). cbn. now rewrite E1, E2, E1.
  Qed.

  Lemma item_rev i T : In i (fi_types f) -> item_sem f i = Some T -> reversible T.
  Proof.
    intros Hi S. pose proof (compiled Hi) as CI. destruct i as [x t|e|s|u]; cbn [item_sem] in S.
    - now apply ty_rev in S.
    - assert (He : In e (enums f)) by (apply in_flat_map; exists (IEnum e); split; [easy|now left]).
      destruct (enum_item_from G He) as (x & y & l & _ & C). unfold enum_sem in S. apply guard_some in S as [_ S].
      destruct CI as (NN & _ & _ & RG). destruct (enum_items C NN) as (items & _ & _ & _ & _ & _ & IX).
      assert (P : reversible (TEnum (map (fun x => (x, VUnit)) (enum_names e)))).
      { cbn. generalize (enum_names e). induction l0; cbn; easy. }
      destruct (en_derive e); try discriminate; destruct (en_indexer e) as [ix|] eqn:EX; try discriminate; destruct (en_as_ref e); try discriminate.
      + apply obind_some in S as (? & _ & S). now injection S as <-.
      + now injection S as <-.
      + destruct (IX _ eq_refl) as [its PR].
        { apply Forall_forall. intros p Hp. rewrite Forall_forall in RG. assert (K : In (snd p) (map snd (en_values e))) by now apply in_map. apply RG in K. unfold i32_range. lia. }
        apply indexer_rev with (1 := S) (2 := PR); [rewrite map_map; cbn; now rewrite map_id|].
        intros p Hp. apply in_map_iff in Hp as (y' & <- & _). easy.
    - unfold struct_sem in S. destruct (omap _ _) as [l|] eqn:E; [|discriminate]. injection S as <-. cbn.
      apply (fold_all2 (P := fun _ t => reversible t)). intros x T' Hp. destruct (omap_in E Hp) as (fd & _ & H).
      destruct (field_sem _ _ _) eqn:FS; [|discriminate]. injection H as _ <-. now apply field_rev in FS.
    - assert (Hu : In u (unions f)) by (apply in_flat_map; exists (IUnion u); split; [easy|now left]).
      destruct (union_item_from G Hu) as (x & y & b & Hd & C). unfold union_sem in S. apply guard_some in S as [_ S]. destruct CI as (NV & _).
      destruct (un_derive u); try discriminate; destruct (un_indexer u) as [ix|] eqn:EX; try discriminate; destruct (un_union u) as [ui|] eqn:EU; try discriminate.
      + destruct (omap _ _) as [vs|] eqn:EV; [|discriminate]. injection S as <-. cbn.
        apply (fold_all2 (P := fun (_ : string) sh => match sh with VUnit => True | VNewtype t => reversible t | VTuple ts => fold_right (fun t P => reversible t /\ P) True ts | VStruct ts => fold_right (fun '(_, t) P => reversible t /\ P) True ts end)).
        intros x' sh Hp. destruct (omap_in EV Hp) as (va & _ & H). unfold serde_variant_sem in H. apply obind_some in H as (x'' & _ & H).
        destruct (va_tys va) as [|t [|]]; [destruct (va_attr va); try discriminate; now injection H as _ <-| |discriminate].
        destruct (field_sem _ _ _) eqn:FS; [|discriminate]. injection H as _ <-. cbn. now apply field_rev in FS.
      + apply obind_some in S as (vs & HV & S).
        assert (UI : union_impl_indexer cfg = true).
        { destruct b as [c specs dflt]. unfold convert_union_token in C. apply gbind_ok in C as (nm & _ & C).
          apply gbind_ok in C as (t & _ & C). apply gbind_ok in C as (p & HP & C). apply gbind_ok in C as (q & HQ & C). cbv zeta in C.
          destruct (up_default q); [|discriminate]. injection C as <-. cbn in EX. now destruct (union_impl_indexer cfg). }
        destruct b as [c specs dflt]. pose proof (ND UI Hd) as ->.
        destruct (variants_named (g := indexer_variant_sem f) (vs := un_variants u) (m := vs)) as [E1 E2]; [|exact HV|].
        { intros va x' a H. unfold indexer_variant_sem in H. destruct (va_name va) as [|z]; [discriminate|]. cbn in H. destruct (va_attr va); try discriminate.
          destruct (omap (ty_sem f) (va_tys va)); [|discriminate]. now injection H as <- _. }
        rewrite <- E1 in NV. destruct (union_paired C EX) as [items PR].
        { rewrite E2. apply (FinFun.Injective_map_NoDup (f := TokId)); [congruence|easy]. }
        apply indexer_rev with (1 := S) (2 := PR); [easy|].
        intros [z' ts] Hp. destruct (omap_in HV Hp) as (va & Hva & H). unfold indexer_variant_sem in H. apply obind_some in H as (? & _ & H).
        destruct (va_attr va); try discriminate. destruct (omap _ (va_tys va)) eqn:EO; [|discriminate]. injection H as _ <-. now apply tys_rev in EO.
      + unfold union_impl_sem in S. apply obind_some in S as (disc & _ & H). apply obind_some in H as (dt & HD & H).
        apply obind_some in H as (variants & HV & H). apply obind_some in H as (names & HN & H). apply obind_some in H as (other & HO & H).
        apply guard_some in H as [_ H]. injection H as <-. cbn [reversible].
        destruct (variants_named (g := union_variant_sem f disc) (vs := un_variants u) (m := variants)) as [E1 E2]; [|exact HV|].
        { intros va x' a H. unfold union_variant_sem in H. destruct (va_name va) as [|z]; [discriminate|]. cbn in H. destruct (va_attr va), (va_tys va) as [|t0 ts0]; try discriminate.
          apply guard_some in H as [_ H]. destruct (omap (ty_sem f) ts0); [|discriminate]. now injection H as <- _. }
        rewrite E1. split; [easy|]. split; [now apply ty_rev in HD|].
        apply (fold_all2 (P := fun (_ : string) o => match o with Some ts => fold_right (fun t P => reversible t /\ P) True ts | None => False end)).
        intros z o Hp. destruct (omap_in HV Hp) as (va & _ & E). unfold union_variant_sem in E. apply obind_some in E as (x' & _ & E).
        destruct (va_attr va); try discriminate. destruct (va_tys va) as [|t ts]; [discriminate|]. apply guard_some in E as [_ E].
        destruct (omap (ty_sem f) ts) as [Ts|] eqn:ET; [|discriminate]. injection E as _ <-. now apply tys_rev in ET.
  Qed.

  Lemma env_rev E : file_env f = Some E -> env_all reversible E.
  Proof. intros FE x T L. destruct (env_item FE L) as (i & Hi & _ & S). now apply item_rev with i. Qed.
End File.

Theorem generated_normalise cfg ds f E x bs v n : generated cfg ds f E -> compiles f ->
  (union_impl_indexer cfg = true -> no_default_arms ds) ->
  from_bytes n E (TRef x) bs = Ok v ->
  exists bs', returns (fun n => to_bytes n E (TRef x) v) (Ok bs') /\ zlen bs' = zlen bs /\
    returns (fun n => from_bytes n E (TRef x) bs') (Ok v).
Proof.
  intros [G FE] CO ND H. apply greturns_run in G as (k & G & _). pose proof (env_rev G CO ND FE) as RE. now apply normalise with (1 := RE) (3 := H).
Qed.
