(** C111: the gaps between the case labels of unions are filled. *)
From Verif Require Import Base RustTypes Nom NomFacts Keyword Ast ParserModel SpecGrammar SpecParse ConstProofs
  CaseModel RustAst GenModel SpecGen GenFacts GenPanic EmitNorm SpecCodeSize SizeProofs ExamplesSize.
Set Implicit Arguments.
Unset Strict Implicit.
Local Open Scope list_scope.
Local Open Scope Z_scope.

Section UnionGaps.
  Variables (cfg : config) (ds : list definition) (n : nat).
  Let cx := ctx cfg ds.
  Hypothesis D : union_complement_index cfg = true.

  Lemma union_fill cond l : (forall p, In p l -> 0 <= fst (fst p) < 2 ^ 32) -> forall s acc r,
    union_values cx n cond s l acc = GOk r -> zlen (up_specs acc) <= zlen (up_specs r) /\
    forall e d v, In (e, d, v) l -> zlen (up_specs acc) + (e - s + 1) <= zlen (up_specs r).
  Proof.
    induction l as [|[[e1 d1] v1] l IH]; intros R s acc r H; cbn [union_values] in H; [injection H as <-; split; [lia|intros e d v []]|].
    apply gbind_ok in H as (fill & F & H). apply gbind_ok in H as (ct & _ & H). apply gbind_ok in H as (bv & _ & H).
    apply gbind_ok in H as (s' & S & H). change (cx_config cx) with cfg in F. rewrite D in F. apply gmap_zlen in F. rewrite zrange_zlen in F.
    pose proof (R (e1, d1, v1) ltac:(now left)) as Re. cbn [fst] in Re.
    assert (R' : forall p, In p l -> 0 <= fst (fst p) < 2 ^ 32) by (intros p P; apply R; now right).
    destruct (IH R' s' _ r H) as [I1 I2]. cbn [up_specs] in I1, I2. rewrite !zlen_app, zlen_cons in I1, I2.
    change (zlen (@nil variant)) with 0 in I1, I2. apply (succ_high cfg) in S. split; [lia|].
    intros e d v [[= -> -> ->]|I]; [lia|]. specialize (I2 e d v I). lia.

  Qed.

  Lemma labels_in specs vals vs arm v :
    gmap (fun s => match s with CaseSpec vs d => gmap (fun v => z <~ resolve_value cx n KU32 v;; GOk (z, d, v)) vs end) specs = GOk vals ->
    In (CaseSpec vs arm) specs -> In v vs -> exists z, resolve_value cx n KU32 v = GOk z /\ In (z, arm, v) (concat vals).
  Proof.
    intros H I J. apply gmap_ok in H. induction H as [|[vs' d] b specs vals H _ IH]; [easy|]. destruct I as [[= -> ->]|I].
    - apply gmap_ok in H. assert (K : exists z, resolve_value cx n KU32 v = GOk z /\ In (z, arm, v) b).
      { clear - H J. induction H as [|v' q vs b Hv H IH]; [easy|]. destruct J as [->|J].
        - apply gbind_ok in Hv as (z & Z & [= <-]). exists z. split; [easy|now left].
        - destruct (IH J) as (z & ? & ?). exists z. split; [easy|now right]. }
      destruct K as (z & Z & K). exists z. split; [easy|]. cbn. apply in_or_app. now left.
    - destruct (IH I) as (z & Z & K). exists z. split; [easy|]. cbn. apply in_or_app. now right.
  Qed.

  Lemma union_gaps x ty sx specs dflt i vs arm v : convert_union_token cx n x (UBody (DVariable ty sx) specs dflt) = GOk i -> ty <> TsBool ->
    In (CaseSpec vs arm) specs -> In v vs -> exists z, resolve_value cx n KU32 v = GOk z /\ z + 1 <= zlen (un_variants i).
  Proof.
    cbn [convert_union_token]. intros H NB I J. apply gbind_ok in H as (nm & _ & H). apply gbind_ok in H as (c & [= <-] & H).
    apply gbind_ok in H as (p1 & P & H). apply gbind_ok in H as (p2 & Df & H). cbv zeta in H.
    destruct (up_default p2) as [dv|] eqn:E; [|discriminate]. injection H as <-. cbn [un_variants].
    assert (D2 : zlen (up_specs p1) <= zlen (up_specs p2)).
    { destruct dflt as [d|]; cbn [union_default] in Df.
      - apply gbind_ok in Df as (t & _ & [= <-]). cbn [up_specs]. rewrite zlen_app, zlen_cons. change (zlen (@nil variant)) with 0. lia.
      - injection Df as <-. lia. }
    assert (A : (values <~ gmap (fun s => match s with CaseSpec vs d =>
                                  gmap (fun v => z <~ resolve_value cx n KU32 v;; GOk (z, d, v)) vs end) specs;;
                union_values cx n ty 0 (sort_by (fun p => fst (fst p)) (concat values)) no_parts) = GOk p1 ->
              exists z, resolve_value cx n KU32 v = GOk z /\ z + 1 <= zlen (up_specs p2)).
    { intros Q. apply gbind_ok in Q as (vals & V & Q). destruct (labels_in V I J) as (z & Z & K). exists z. split; [exact Z|].
      apply cases_zlen in V as [_ V2]. apply union_fill in Q as [_ Q]; [|intros p X; apply V2; now apply sort_in in X].
      specialize (Q z arm v (sort_has _ K)). change (zlen (up_specs no_parts)) with 0 in Q. lia. }
    destruct ty; try discriminate P; try easy; now apply A in P.
  Qed.
End UnionGaps.

Lemma union_gaps_filled n cfg ds f x ty sx specs dflt vs arm c z : union_complement_index cfg = true -> gen_code n cfg ds = GOk f ->
  In (DefType (TdUnion x (UBody (DVariable ty sx) specs dflt))) ds -> ty <> TsBool -> In (CaseSpec vs arm) specs -> In (VConst c) vs ->
  good_constant c -> stands_for c z -> z + 1 <= code_size f.
Proof.
  intros D H I NB J V G S. rewrite gen_code_eq in H. apply gbind_ok in H as (cs & C & H). apply gbind_ok in H as (ts & T & H). injection H as <-.
  unfold code_size. cbn [fi_consts fi_types]. unfold types_token in T. apply gbind_ok in T as (ls & L & [= <-]). cbn [typedefs ctx] in L.
  set (u := UBody (DVariable ty sx) specs dflt) in *.
  assert (K : In (x, TdUnion x u) (type_defs ds)).
  { unfold type_defs. apply in_flat_map. exists (DefType (TdUnion x u)). split; [exact I|]. cbn. now left. }
  apply gmap_ok in L. assert (M : exists b, In b ls /\ type_token_of (ctx cfg ds) n (x, TdUnion x u) = GOk b).
  { clear - L K. induction L as [|t b ts ls E _ IH]; [easy|]. destruct K as [->|K]; [exists b; split; [now left|easy]|].
    destruct (IH K) as (b' & B & E'). exists b'. split; [now right|easy]. }
  destruct M as (b & B & E). cbn [type_token_of] in E. apply gbind_ok in E as (e & E & [= <-]).
  destruct (union_gaps D E NB J V) as (z' & R & W). assert (z' = z) as ->.
  { cbn [resolve_value] in R. assert (Q : fits KU32 z \/ ~ fits KU32 z) by (cbn; lia). destruct Q as [Q|Q].
    - rewrite (constant_fits G S Q) in R. congruence.
    - rewrite (constant_overflows G S Q) in R. discriminate. }
  assert (IE : In (IUnion e) (concat ls)) by (apply in_concat; exists [IUnion e]; split; [exact B|now left]).
  apply size_in in IE. cbn [item_size] in IE. pose proof (zlen_nonneg cs). lia.
Qed.

(** a union of two arms *)
Definition arms_text : text := chars "union u switch (int k) { case 300: void; case 2: int y; };".
Definition arms : list definition := match parse 100 arms_text with GOk ds => ds | _ => [] end.
Definition arms_size (fl : flags) : option Z := match gen_code 5 (main_config fl true) arms with GOk f => Some (code_size f) | _ => None end.
Definition union_complement (fl : flags) : bool := union_complement_index (main_config fl true).
Lemma arms_case : parse 100 arms_text = GOk arms /\ defs_size arms = 2 /\
  arms = [DefType (TdUnion "u" (UBody (DVariable (TsInt true) "k")
            [CaseSpec [VConst (Decimal "300")] DVoid; CaseSpec [VConst (Decimal "2")] (DVariable (TsInt true) "y")] None))] /\
  union_complement no_flags = true /\ arms_size no_flags = Some 301 /\ arms_size (Flags false true true false) = Some 2.
Proof. repeat split; vm_compute; reflexivity. Qed.
