(** Names and sizes of generated items; words that an enum does not name. *)
From Coq Require Import Permutation.
From Verif Require Import Base RustTypes SpecXdr SpecTypes XdrFacts SpecMisc SerModel DeModel SpecDecode DecProofs CodecProofs CodecLemmas Nom NomFacts Keyword Ast ParserModel SpecGrammar SpecParse
  ParseSound ParserLemmas ConstProofs CaseModel SpecCase CaseProofs RustAst GenModel SpecGen SpecItems GenFacts GenTotal GenPanic GenLemmas
  SpecXdl GenSem SpecWire WireBase WireEnum WireBack WireEnums SpecEmit EmitBase EmitProofs EmitFlags EmitItems.
Set Implicit Arguments.
Unset Strict Implicit.
Local Open Scope list_scope.

(** ** Type names *)
Lemma item_named cfg ds n f i : gen_code n cfg ds = GOk f -> In i (fi_types f) ->
  exists x t, In (x, t) (type_defs ds) /\ item_name i = camel x /\ camelable x.
Proof.
  intros H Hi. destruct (item_back H Hi) as ([x [d|y l|y l|y u]] & its & Hd & T & HI); cbn [type_token_of] in T.
  - destruct (remove_typedef _); [injection T as <-; easy|]. apply gbind_ok in T as (o & _ & T). apply gbind_ok in T as ([ty op] & _ & T).
    destruct op; [|discriminate..]. apply gbind_ok in T as (z & HZ & [= <-]). apply camel_back in HZ as [-> C]. destruct HI as [<-|[]]. cbn. eauto.
  - apply gbind_ok in T as (e & T & [= <-]). destruct HI as [<-|[]]. unfold convert_enum_token in T. apply gbind_ok in T as (ix & _ & T). cbv zeta in T.
    apply gbind_ok in T as (nm & HN & T). apply gbind_ok in T as (vs & _ & T). apply gbind_ok in T as (items & _ & T).
    destruct items as [|[d z] rest]; [discriminate|]. injection T as <-. apply camel_back in HN as [-> C]. cbn. eauto.
  - apply gbind_ok in T as (s & T & [= <-]). destruct HI as [<-|[]]. unfold convert_struct_token in T. apply gbind_ok in T as (fs & _ & T).
    apply gbind_ok in T as (nm & HN & [= <-]). apply camel_back in HN as [-> C]. cbn. eauto.
  - apply gbind_ok in T as (s & T & [= <-]). destruct HI as [<-|[]]. destruct u as [c specs dflt]. unfold convert_union_token in T. apply gbind_ok in T as (nm & HN & T).
    apply gbind_ok in T as (t & _ & T). apply gbind_ok in T as (p & _ & T). apply gbind_ok in T as (q & _ & T). cbv zeta in T.
    destruct (up_default q); [|discriminate]. injection T as <-. apply camel_back in HN as [-> C]. cbn. eauto.
Qed.
Lemma type_words cfg ds f i : greturns (fun n => gen_code n cfg ds) (GOk f) -> In i (fi_types f) ->
  In (item_name i) rust_words -> item_name i = "Self"%string.
Proof.
  intros H Hi W. apply greturns_run in H as (n & H & _). destruct (item_named H Hi) as (x & t & _ & E & C). rewrite E in *.
  destruct (string_dec (camel x) "Self") as [e|ne]; [exact e|]. now destruct (proj1 (camel_word C ne)).
Qed.

(** ** Constant names *)
Lemma const_words cfg ds f : greturns (fun n => gen_code n cfg ds) (GOk f) -> map co_name (fi_consts f) = map fst (const_defs ds).
Proof.
  intros H. apply greturns_run in H as (n & H & _). apply gen_ok_parts in H as [H _]. unfold constants_token in H. apply gmap_ok in H.
  cbn [constants ctx] in H. induction H as [|[x v] c l cs h H IH]; [easy|]. cbn [map fst]. f_equal; [|exact IH]. cbn [constant_token] in h.
  apply gbind_ok in h as (nm & HN & h). assert (nm = x) as ->.
  { unfold ident_new in HN. destruct (ident_text _); [|discriminate]. injection HN as <-. now rewrite string_of_list_ascii_of_string. }
  destruct (convert_value_token KU32 false v) as [t|e| |]; [now injection h as <-| |discriminate..].
  apply gbind_ok in h as (t & _ & h). now injection h as <-.
Qed.

(** ** A field whose type is the struct itself *)
Lemma self_boxed cfg ds f s : greturns (fun n => gen_code n cfg ds) (GOk f) -> In s (structs f) ->
  exists x y l, In (x, TdStruct y l) (type_defs ds) /\ camel_of x (st_name s) /\
    Forall2 (fun d fd => mentions d = Some (TsIdent x) -> exists t, fd_ty fd = YBox t) l (st_fields s).
Proof.
  intros H I. apply greturns_run in H as (n & H & _). apply in_flat_map in I as (i & Hi & I). destruct i as [| |s'|]; cbn in I; try easy. destruct I as [<-|[]].
  destruct (item_back H Hi) as ([x [d|y l|y l|y u]] & its & Hd & T & HI); cbn [type_token_of] in T.
  - destruct (remove_typedef _); [injection T as <-; easy|]. apply gbind_ok in T as (o & _ & T). apply gbind_ok in T as ([ty op] & _ & T).
    destruct op; [|discriminate..]. apply gbind_ok in T as (z & _ & [= <-]). now destruct HI as [HI|[]].
  - apply gbind_ok in T as (e & _ & [= <-]). now destruct HI as [HI|[]].
  - apply gbind_ok in T as (s & T & [= <-]). destruct HI as [HI|[]]. injection HI as ->. exists x, y, l. split; [easy|].
    unfold convert_struct_token in T. apply gbind_ok in T as (fs & HF & T). apply gbind_ok in T as (nm & HN & T). injection T as <-.
    apply camel_back in HN as [-> _]. split; [apply camel_of_camel|]. cbn [st_fields]. apply gmap_ok in HF. eapply Forall2_impl_in; [exact HF|].
    intros d fd _ _ h M. unfold struct_field in h. destruct (decl_name d); [|discriminate]. apply gbind_ok in h as (o & _ & h).
    apply gbind_ok in h as ([ty op] & _ & h). cbv zeta in h. apply gbind_ok in h as (idn & _ & h). injection h as <-. cbn [fd_ty].
    replace (tyspec_is x (decl_type d)) with true; [eauto|]. symmetry. unfold tyspec_is.
    replace (decl_type d) with (Some (TsIdent x)); [apply String.eqb_refl|]. now destruct d.
  - apply gbind_ok in T as (s & _ & [= <-]). now destruct HI as [HI|[]].
Qed.

(** ** Numbers as case labels *)
Lemma number_token c z : good_constant c -> constant_value KU32 c = GOk z -> stands_for c z.
Proof.
  intros G H. destruct (c38 KU32 G) as (w & S & _ & F & O). assert (D : fits KU32 w \/ ~ fits KU32 w) by (cbn; lia).
  destruct D as [D|D]; [rewrite F in H by easy; injection H as <-; exact S|rewrite O in H by easy; discriminate].
Qed.
Lemma values_kept cx n c : forall l s acc p, union_values cx n c s l acc = GOk p ->
  (forall va, In va (up_specs acc) -> In va (up_specs p)) /\
  forall e d v, In (e, d, v) l -> exists ct, convert_case_token cx n v d c = GOk ct /\ In (ct_variant ct) (up_specs p).
Proof.
  induction l as [|[[e d] v] l IH]; intros s acc p H; cbn [union_values] in H.
  - injection H as <-. easy.
  - apply gbind_ok in H as (fill & _ & H). apply gbind_ok in H as (ct & HC & H). apply gbind_ok in H as (bv & _ & H).
    apply gbind_ok in H as (s' & _ & H). apply IH in H as (I & K). cbn [up_specs] in I.
    split; [intros va Hva; apply I; apply in_or_app; now left|]. intros e' d' v' [[= <- <- <-]|Hi]; [|now apply K with e'].
    exists ct. split; [easy|]. apply I. apply in_or_app. right. apply in_or_app. right. now left.
Qed.
Lemma numeric_label cfg ds f x y t w specs dflt c : good_spec ds -> greturns (fun n => gen_code n cfg ds) (GOk f) ->
  In (x, TdUnion y (UBody (DVariable t w) specs dflt)) (type_defs ds) -> t <> TsBool -> In (VConst c) (labels specs) ->
  exists u va z, In u (unions f) /\ camel_of x (un_name u) /\ In va (un_variants u) /\ va_name va = TokNum z /\ stands_for c z.
Proof.
  intros G H I NB L. apply greturns_run in H as (n & H & _). destruct (item_from H I) as (its & T & S). cbn [type_token_of] in T.
  apply gbind_ok in T as (u & T & E). injection E as <-. destruct (good_types G I) as ((gy & gb) & _). cbn in gb. destruct gb as (_ & _ & gs & _). apply good_fold in gs.
  exists u. unfold convert_union_token in T. apply gbind_ok in T as (nm & HN & T). apply camel_back in HN as [-> _].
  apply gbind_ok in T as (t' & HT & T). injection HT as <-. apply gbind_ok in T as (p & HP & T). apply gbind_ok in T as (q & HQ & T). cbv zeta in T.
  destruct (up_default q) as [dv|] eqn:DQ; [|discriminate]. injection T as T.
  assert (VALS : (values <~ gmap (fun s => match s with CaseSpec vs d =>
                                  gmap (fun v => z <~ resolve_value (ctx cfg ds) n KU32 v;; GOk (z, d, v)) vs end) specs;;
                union_values (ctx cfg ds) n t 0 (sort_by (fun p => fst (fst p)) (concat values)) no_parts) = GOk p)
    by (destruct t; try discriminate HP; try easy; exact HP).
  apply gbind_ok in VALS as (vals & HV & K). apply gmap_ok in HV. apply values_kept in K as [_ K].
  apply in_flat_map in L as ([vs d] & Hs & Hv). destruct (Forall2_in_l HV Hs) as (l & Hl & E'). apply gmap_ok in E'.
  destruct (Forall2_in_l E' Hv) as ([[e d'] v'] & Hi & E''). apply gbind_ok in E'' as (z & Hz & E''). injection E'' as <- <- <-.
  destruct (K z d (VConst c)) as (ct & HC & HI).
  { apply (Permutation_in _ (Permutation_sym (sort_by_perm _ _))). apply in_concat. eauto. }
  rewrite Forall_forall in gs. destruct (gs _ Hs) as (_ & gv & _). rewrite Forall_forall in gv. specialize (gv _ Hv). cbn in gv, Hz.
  exists (ct_variant ct), z. split; [apply in_flat_map; exists (IUnion u); split; [apply S; now left|now left]|].
  rewrite <- T. cbn [un_name un_variants]. split; [apply camel_of_camel|]. split.
  - unfold union_default in HQ. destruct dflt as [dd|].
    + apply gbind_ok in HQ as (o & _ & HQ). cbv zeta in HQ. injection HQ as <-. cbn [up_specs]. apply in_or_app. now left.
    + injection HQ as <-. exact HI.
  - split; [|now apply number_token]. destruct (case_shape HC) as (-> & _). unfold convert_case_token in HC. cbn [convert_value_token] in HC.
    rewrite Hz in HC. cbn [gbind] in HC. apply gbind_ok in HC as (cty & _ & HC). apply gbind_ok in HC as (o & _ & HC). injection HC as <-.
    destruct o as [[tt op]|]; destruct (union_impl_union _); easy.
Qed.

(** a deserializer's error is the caller's *)
Lemma from_bytes_err E T bs err : returns (fun n => deser n E T bs) (Err err) -> returns (fun n => from_bytes n E T bs) (Err err).
Proof. intros [_ [N H]]. split; [discriminate|]. exists N. intros n L. unfold from_bytes. now rewrite H. Qed.

(** ** Default mode: which words an enum accepts *)
Lemma reserved_pairs start e fill : gmap (fun z => r <~ reserved z;; GOk (r, z)) (zrange start e) = GOk fill ->
  map snd fill = zrange start e.
Proof.
  intros H. apply gmap_ok in H. induction H as [|z p zs ps h H IH]; [easy|]. cbn. f_equal; [|exact IH].
  apply gbind_ok in h as (r & _ & [= <-]). easy.
Qed.
Lemma values_span cx : enum_complement_index (cx_config cx) = true -> forall idx s vs,
  enum_values cx s idx = GOk vs -> climbs fst s idx -> Forall (fun p => fst p < 2 ^ 31) idx ->
  idx = [] /\ vs = [] \/
  exists p, In p idx /\ s <= fst p /\ map snd vs = zrange s (fst p + 1) /\ forall q, In q idx -> fst q <= fst p.
Proof.
  intros CI. induction idx as [|[e x] idx IH]; intros s vs H C B.
  - injection H as <-. now left.
  - right. cbn [enum_values] in H. rewrite CI in H. apply gbind_ok in H as (fill & HF & H). apply reserved_pairs in HF.
    apply gbind_ok in H as (it & _ & H). apply gbind_ok in H as (s' & HS & H). apply gbind_ok in H as (vs' & HV & H). injection H as <-.
    inversion C as [|? ? ? h C']; subst. cbn [fst] in *. inversion B as [|? ? b B']; subst. cbn [fst] in b.
    destruct idx as [|[e' x'] idx].
    + injection HV as <-. exists (e, x). split; [now left|]. split; [easy|]. cbn [fst]. split.
      * rewrite map_app, HF. cbn. now rewrite (@zrange_split s e (e + 1)), zrange_one by lia.
      * intros q [<-|[]]. cbn. lia.
    + assert (Es : s' = e + 1).
      { inversion C' as [|? ? ? h' _]; subst. inversion B' as [|? ? b' _]; subst. cbn [fst] in *. unfold succ_checked in HS.
        destruct (Z.ltb_spec e (2 ^ 31 - 1)); [now injection HS as <-|lia]. }
      subst s'. destruct (IH _ _ HV C' B') as [[K _]|(p & Hp & Le & Ep & Mp)]; [discriminate|].
      exists p. split; [now right|]. split; [lia|]. split.
      * rewrite map_app, HF. cbn [map snd]. rewrite Ep, (@zrange_split s e (fst p + 1)), (@zrange_split e (e + 1) (fst p + 1)), zrange_one by lia. easy.
      * intros q [<-|Hq]; [cbn; lia|now apply Mp].
Qed.

Lemma default_words cfg ds f x y l : good_spec ds -> one_scope ds -> enum_impl_std_trait cfg = false -> enum_impl_indexer cfg = false ->
  greturns (fun n => gen_code n cfg ds) (GOk f) -> compiles f ->
  (forall a z, In a l -> value_is ds (as_value a) z -> 0 <= z) -> In (x, TdEnum y l) (type_defs ds) ->
  exists e T a M, In (IEnum e) (fi_types f) /\ camel_of x (en_name e) /\ enum_sem e = Some T /\
    In a l /\ value_is ds (as_value a) M /\ (forall b z, In b l -> value_is ds (as_value b) z -> z <= M) /\
    forall E w bs, signed 4 w bs ->
      (0 <= w <= M -> returns (fun n => from_bytes n E T bs) (Ok (RVariant (Z.to_nat w) []))) /\
      (~ 0 <= w <= M -> exists err, returns (fun n => from_bytes n E T bs) (Err err)).
Proof.
  intros G OS ST IX H C POS I. destruct C as (_ & _ & C & _).
  assert (CI : enum_complement_index cfg = true) by (unfold enum_complement_index; now rewrite ST, IX).
  destruct (enum_facts_of G OS H C (or_intror ST) (fun a z Ha V _ => POS a z Ha V) I) as (e & HI & EN & EM & EO & EF).
  destruct EF as (_ & T & ET & _). pose proof EM as (ix & F & M). cbv zeta in M. destruct M as (_ & _ & EV & EA & _ & (p0 & rest & ES & _) & EDV & EI).
  rewrite ST in EA. rewrite IX in EDV, EI.
  assert (P : Permutation (sort_by fst ix) ix) by apply sort_by_perm.
  assert (IN : forall p, In p (sort_by fst ix) -> exists a, In a l /\ value_is ds (as_value a) (fst p) /\ - 2 ^ 31 <= fst p < 2 ^ 31).
  { intros p Hp. apply (Permutation_in _ P) in Hp. destruct (Forall2_in_r F Hp) as (a & Ha & _ & V & R). eauto. }
  rewrite Forall_forall in C. pose proof (C _ HI) as (_ & _ & NV & _).
  destruct (enum_values_back EV) as (_ & _ & _ & M2). specialize (M2 NV).
  destruct (@values_span (ctx cfg ds) CI _ _ _ EV) as [[K _]|(p & Hp & _ & Ep & Mp)].
  { apply asc_climbs; [apply sort_by_asc|exact M2|]. intros p Hp. destruct (IN p Hp) as (a & Ha & V & _). now apply POS with a. }
  { apply Forall_forall. intros p Hp. destruct (IN p Hp) as (a & _ & _ & R). lia. }
  { rewrite K in ES. discriminate. }
  destruct (IN p Hp) as (a & Ha & V & R). exists e, T, a, (fst p). split; [easy|]. split; [rewrite EN; apply camel_of_camel|].
  split; [easy|]. split; [easy|]. split; [easy|]. split.
  { intros b z Hb W. destruct (Forall2_in_l F Hb) as (q & Hq & _ & W' & _). rewrite (value_is_fun W W'). apply Mp.
    now apply (Permutation_in _ (Permutation_sym P)). }
  unfold enum_sem in ET. rewrite EDV, EI, EA in ET. destruct (existsb _ _); [|discriminate]. injection ET as <-.
  assert (LEN : Z.of_nat (length (map (fun x => (x, VUnit)) (enum_names e))) = fst p + 1).
  { rewrite map_length. unfold enum_names. rewrite map_length, <- (map_length snd), Ep. unfold zrange. rewrite map_length, seq_length.
    assert (0 <= fst p) by now apply POS with a. lia. }
  intros E w bs S. split.
  - intros Hw. apply from_bytes_accepted.
    destruct (nth_error (enum_names e) (Z.to_nat w)) as [nm|] eqn:en.
    2:{ apply nth_error_None in en. rewrite map_length in LEN. lia. }
    apply ac_unit_variant with nm; [|lia|].
    + rewrite Z2Nat.id by lia. apply signed_unsigned; [exact S|lia].
    + rewrite nth_error_map, en. reflexivity.
  - intros Hw. destruct (Z.lt_ge_cases w 0) as [N|N].
    + exists EConvert. rewrite <- (app_nil_r bs). apply from_bytes_err. apply c16_negative with w; easy.
    + eexists. rewrite <- (app_nil_r bs). apply from_bytes_err. apply c16_unknown with (z := w); [easy|]. rewrite LEN. lia.
Qed.
