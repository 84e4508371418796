(** C111: gaps are also filled for numbers that are given by names. *)
From Verif Require Import Base RustTypes Nom NomFacts Keyword Ast ParserModel SpecGrammar SpecParse ParserLemmas ConstProofs
  CaseModel RustAst GenModel SpecGen GenFacts GenPanic EmitNorm SpecTranslate TranslateGen SpecCodeSize SizeProofs GapProofs ExamplesSize ExamplesGen.
Set Implicit Arguments.
Unset Strict Implicit.
Local Open Scope list_scope.
Local Open Scope Z_scope.

Lemma item_generated n cfg ds f t : gen_code n cfg ds = GOk f -> In t (type_defs ds) ->
  exists b, type_token_of (ctx cfg ds) n t = GOk b /\ forall i, In i b -> item_size i <= code_size f.
Proof.
  intros H K. rewrite gen_code_eq in H. apply gbind_ok in H as (cs & C & H). apply gbind_ok in H as (ts & T & H). injection H as <-.
  unfold code_size. cbn [fi_consts fi_types]. unfold types_token in T. apply gbind_ok in T as (ls & L & [= <-]). cbn [typedefs ctx] in L.
  apply gmap_ok in L. assert (M : exists b, In b ls /\ type_token_of (ctx cfg ds) n t = GOk b).
  { clear - L K. induction L as [|u b ts ls E _ IH]; [easy|]. destruct K as [->|K]; [exists b; split; [now left|easy]|].
    destruct (IH K) as (b' & B & E'). exists b'. split; [now right|easy]. }
  destruct M as (b & B & E). exists b. split; [exact E|]. intros i I.
  assert (IE : In i (concat ls)) by (apply in_concat; now exists b). apply size_in in IE. pose proof (zlen_nonneg cs). lia.
Qed.

Lemma enum_named_gaps n cfg ds f x l a z : enum_complement_index cfg = true -> good_spec ds -> gen_code n cfg ds = GOk f ->
  In (DefType (TdEnum x l)) ds -> In a l -> number_is ds KI32 (as_value a) z -> z + 1 <= code_size f.
Proof.
  intros D GS H I J N.
  assert (K : In (x, TdEnum x l) (type_defs ds)).
  { unfold type_defs. apply in_flat_map. exists (DefType (TdEnum x l)). split; [exact I|]. cbn. now left. }
  destruct (item_generated H K) as (b & E & B). cbn [type_token_of] in E. apply gbind_ok in E as (e & E & [= <-]).
  assert (GV : good_value (as_value a)).
  { apply (proj1 (Forall_forall _ _) GS) in I as (_ & _ & F). exact (proj2 (proj1 (Forall_forall _ _) F a J)). }
  assert (R : exists w, resolve_value (ctx cfg ds) n KI32 (as_value a) = GOk w).
  { unfold convert_enum_token in E. apply gbind_ok in E as (ix & X & _). apply gmap_ok in X.
    clear - X J. induction X as [|b p l ix Hb _ IH]; [easy|]. destruct J as [->|J]; [|now apply IH].
    apply gbind_ok in Hb as (w & W & _). now exists w. }
  destruct R as (w & R). destruct (number_found GS GV R) as [N' _]. rewrite <- (number_fun cfg GS GV N N') in R.
  pose proof (enum_gaps D E J R). specialize (B (IEnum e) ltac:(now left)). cbn [item_size] in B. lia.
Qed.

Lemma union_named_gaps n cfg ds f x ty sx specs dflt vs arm v z : union_complement_index cfg = true -> good_spec ds -> gen_code n cfg ds = GOk f ->
  In (DefType (TdUnion x (UBody (DVariable ty sx) specs dflt))) ds -> ty <> TsBool -> In (CaseSpec vs arm) specs -> In v vs ->
  number_is ds KU32 v z -> z + 1 <= code_size f.
Proof.
  intros D GS H I NB J V N. set (u := UBody (DVariable ty sx) specs dflt) in *.
  assert (K : In (x, TdUnion x u) (type_defs ds)).
  { unfold type_defs. apply in_flat_map. exists (DefType (TdUnion x u)). split; [exact I|]. cbn. now left. }
  destruct (item_generated H K) as (b & E & B). cbn [type_token_of] in E. apply gbind_ok in E as (e & E & [= <-]).
  assert (GV : good_value v).
  { apply (proj1 (Forall_forall _ _) GS) in I as (_ & _ & _ & F & _). clear - F J V. induction specs as [|s l IH]; [easy|].
    cbn [fold_right] in F. destruct F as [F1 F2], J as [->|J]; [|now apply IH]. destruct F1 as (_ & F1 & _).
    exact (proj1 (Forall_forall _ _) F1 v V). }
  destruct (union_gaps D E NB J V) as (w & R & W). destruct (number_found GS GV R) as [N' _]. rewrite <- (number_fun cfg GS GV N N') in W.
  specialize (B (IUnion e) ltac:(now left)). cbn [item_size] in B. lia.
Qed.

(** the union of [gap_text] names its labels *)
Lemma gap_named : good_spec gap_defs /\ number_is gap_defs KU32 (VIdent "FAR") 500 /\ gap_size no_flags = Some 1006.
Proof.
  assert (G : good_spec gap_defs).
  { apply (@c34 gap_text). apply (@by_parse 400). vm_compute. reflexivity. }
  split; [exact G|]. split; [|exact (proj2 (proj2 (proj2 gap_sizes)))].
  apply (@number_found (main_config no_flags true) gap_defs G 5); [|vm_compute; reflexivity].
  split; [now repeat constructor|cbn; intuition discriminate].
Qed.
