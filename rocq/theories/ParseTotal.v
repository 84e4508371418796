(** The parser terminates: with a nesting bound above the length of its input,
    no bound is exhausted. *)
From Verif Require Import Base Nom Keyword Ast ParserModel SpecGrammar NomFacts ParseSound.
Set Implicit Arguments.
Unset Strict Implicit.
Open Scope list_scope.

(** parsers that consume something *)
Definition consumes {A} (p : nparser A) : Prop :=
  forall i a r, p i = POk a r -> (length r < length i)%nat.

Lemma nf_preceded_lt {A B} L (p : nparser A) (q : nparser B) :
  nofuel (S L) p -> consumes p -> nofuel L q -> nofuel (S L) (preceded p q).
Proof.
  intros N C M i H. unfold preceded, pbind. destruct (p i) eqn:E; [|discriminate|].
  - apply M. apply C in E. lia.
  - intros _. exact (N i H E).
Qed.

Lemma consumes_word s : s <> ""%string -> consumes (pair (tag s) multispace1).
Proof.
  intros NE i x r H. apply pair_ok in H as (a & b & i' & H1 & H2 & _). apply shrinks_ms1 in H2.
  apply tag_ok in H1 as ->. rewrite app_length. destruct s; [congruence|]. cbn. lia.
Qed.

Ltac sh := repeat first [ assumption | apply shrinks_tag | apply shrinks_ms0 | apply shrinks_ms1
  | apply shrinks_comment | apply shrinks_comment0 | apply shrinks_value | apply shrinks_identifier
  | apply shrinks_assign | apply shrinks_tw1
  | apply shrinks_pair | apply shrinks_preceded | apply shrinks_terminated | apply shrinks_delimited
  | apply shrinks_pmap | apply shrinks_opt | apply shrinks_many1 | apply shrinks_many0 ].

Lemma shrinks_peek {A} (p : nparser A) : shrinks (peek p).
Proof. intros i a r H. apply peek_ok in H as (-> & _). lia. Qed.
Lemma shrinks_one_of s : shrinks (one_of s).
Proof. intros [|c i] a r H; cbn in H; [discriminate|]. destruct (existsb _ _); [|discriminate]. injection H as _ <-. cbn. lia. Qed.
Lemma shrinks_take_until s : shrinks (take_until s).
Proof. intros i a r H. apply take_until_ok in H as (-> & _). rewrite app_length. lia. Qed.
Lemma shrinks_recognize {A} (p : nparser A) : shrinks p -> shrinks (recognize p).
Proof. intros S i a r H. apply recognize_ok in H as (x & H & _). eauto. Qed.
Lemma shrinks_verify {A} (p : nparser A) f : shrinks p -> shrinks (verify p f).
Proof. intros S i a r H. apply verify_ok in H as (H & _). eauto. Qed.
Lemma shrinks_por {A} (p q : nparser A) : shrinks p -> shrinks q -> shrinks (por p q).
Proof. intros S T i a r H. apply por_ok in H as [H|[_ H]]; eauto. Qed.
Lemma shrinks_pfail {A} : shrinks (@pfail A).
Proof. intros i a r H. discriminate. Qed.
Lemma shrinks_not_line_ending : shrinks not_line_ending.
Proof.
  intros i a r H. unfold not_line_ending in H. destruct (span _ i) as [x b] eqn:S.
  apply span_ok in S as (-> & _). rewrite app_length.
  destruct b as [|c [|d b]]; [injection H as _ <-; cbn; lia| |].
  - destruct (Ascii.eqb c cr); [discriminate|]. injection H as _ <-. cbn. lia.
  - destruct (Ascii.eqb c cr); [destruct (Ascii.eqb d lf); [|discriminate]|]; injection H as _ <-; cbn; lia.
Qed.

Ltac shx := repeat first [ assumption | apply shrinks_tag | apply shrinks_tw1 | apply shrinks_ms0 | apply shrinks_ms1
  | apply shrinks_comment | apply shrinks_comment0 | apply shrinks_value | apply shrinks_identifier
  | apply shrinks_assign | apply shrinks_peek | apply shrinks_one_of | apply shrinks_take_until
  | apply shrinks_not_line_ending | apply shrinks_pfail
  | apply shrinks_pair | apply shrinks_preceded | apply shrinks_terminated | apply shrinks_delimited
  | apply shrinks_pmap | apply shrinks_opt | apply shrinks_many1 | apply shrinks_many0
  | apply shrinks_recognize | apply shrinks_verify | apply shrinks_por ].

Create HintDb nf discriminated.
Ltac nf := unfold alt; cbn [fold_right];
  repeat first
  [ assumption | apply nf_tag | apply nf_tw0 | apply nf_tw1 | apply nf_one_of | apply nf_take_until
  | apply nf_not_line_ending | apply nf_line_ending | apply nf_pfail
  | solve [auto with nf]
  | apply nf_pmap | apply nf_pair | apply nf_preceded | apply nf_terminated | apply nf_delimited
  | apply nf_opt | apply nf_peek | apply nf_recognize | apply nf_verify | apply nf_por
  | apply nf_many0 | apply nf_many1 | apply nf_separated
  | solve [shx] ].

Lemma nf_comment L : nofuel L comment.
Proof. unfold comment. nf. Qed.
#[export] Hint Resolve nf_comment : nf.
Lemma nf_comment0 L : nofuel L comment0.
Proof. unfold comment0. nf. Qed.
Lemma nf_identifier L : nofuel L identifier.
Proof. unfold identifier. nf. Qed.
Lemma nf_constant L : nofuel L constant_p.
Proof. unfold constant_p, decimal_nonzero, hexadecimal, octal. nf. Qed.
#[export] Hint Resolve nf_comment0 nf_identifier nf_constant : nf.
Lemma shrinks_constant : shrinks constant_p.
Proof. exact (reads_shrinks constant_w). Qed.
Lemma nf_value L : nofuel L value_p.
Proof. unfold value_p. pose proof shrinks_constant. nf. Qed.
#[export] Hint Resolve nf_value : nf.
Lemma nf_assign L : nofuel L assign_p.
Proof. unfold assign_p. nf. Qed.
#[export] Hint Resolve nf_assign : nf.
Lemma nf_constant_def L : nofuel L constant_def.
Proof. unfold constant_def. nf. Qed.
Lemma nf_comment_line L : nofuel L comment_line.
Proof.
  unfold comment_line. apply nf_preceded; [nf|shx|]. unfold terminated. apply nf_pbind; [nf|shx|].
  intros a. intros i _. unfold pbind. pose proof (@nf_line_ending (S (length i)) i) as N.
  destruct (line_ending i) eqn:E; [discriminate|discriminate|]. exfalso. apply N; [lia|reflexivity].
Qed.
Lemma nf_enum_body L : nofuel L enum_body.
Proof.
  unfold enum_body. apply nf_delimited; [nf|shx| | |nf|shx].
  - nf.
  - intros i a r H. unfold separated_list1 in H. apply pbind_ok in H as (x & j & H1 & H2).
    apply shrinks_assign in H1. apply pmap_ok in H2 as (l & H2 & _).
    apply shrinks_many0 in H2; [lia|shx].
Qed.
#[export] Hint Resolve nf_enum_body : nf.

Section Decl.
  Variable ts : nparser tyspec.
  Variable L : nat.
  Hypothesis ts_w : reads ts (fun t => good_type t /\ t <> TsVoid) w_type.
  Hypothesis ts_nf : nofuel L ts.

  Lemma nf_declaration : nofuel L (declaration ts).
  Proof. pose proof (reads_shrinks ts_w). unfold declaration. nf. Qed.

  Lemma nf_struct_body : nofuel L (struct_body ts).
  Proof. pose proof nf_declaration. pose proof (shrinks_declaration ts_w). unfold struct_body. nf. Qed.

  Lemma nf_case_label : nofuel L case_label.
  Proof. unfold case_label. nf. Qed.
  Lemma nf_case_spec : nofuel L (case_spec ts).
  Proof.
    pose proof nf_declaration. pose proof (shrinks_declaration ts_w).
    pose proof nf_case_label. pose proof (reads_shrinks case_label_w). unfold case_spec. nf.
  Qed.
  Lemma nf_union_body : nofuel L (union_body ts).
  Proof.
    pose proof nf_declaration. pose proof (shrinks_declaration ts_w).
    pose proof nf_case_spec. pose proof (shrinks_case_spec ts_w). unfold union_body. nf.
  Qed.
End Decl.

Lemma shrinks_enum_body : shrinks enum_body.
Proof. exact (reads_shrinks enum_body_w). Qed.

Lemma nf_type_specifier n : nofuel n (type_specifier n).
Proof.
  induction n as [|n IH]; [intros i H; lia|]. cbn [type_specifier].
  pose proof (@type_specifier_w n) as R.
  pose proof (nf_struct_body R IH) as N1. pose proof (nf_union_body R IH) as N2.
  pose proof (reads_shrinks (struct_body_w R)). pose proof (reads_shrinks (union_body_w R)).
  pose proof shrinks_enum_body.
  assert (N3 : nofuel (S n) (struct_type_spec (type_specifier n))).
  { apply nf_preceded_lt; [nf|now apply consumes_word|exact N1]. }
  assert (N4 : nofuel (S n) (union_type_spec (type_specifier n))).
  { apply nf_preceded_lt; [nf|now apply consumes_word|exact N2]. }
  assert (S3 : shrinks (struct_type_spec (type_specifier n))) by (unfold struct_type_spec; shx).
  assert (S4 : shrinks (union_type_spec (type_specifier n))) by (unfold union_type_spec; shx).
  clear N1 N2. unfold type_specifier_alts, unsigned_p, word_p, enum_type_spec. nf.
Qed.

Section Spec.
  Variable n : nat.
  Let R := @type_specifier_w n.
  Let N := @nf_type_specifier n.

  Lemma nf_type_def : nofuel n (type_def n).
  Proof.
    pose proof (nf_declaration R N). pose proof (shrinks_declaration R).
    pose proof (nf_struct_body R N). pose proof (reads_shrinks (struct_body_w R)).
    pose proof (nf_union_body R N). pose proof (reads_shrinks (union_body_w R)).
    pose proof shrinks_enum_body. unfold type_def. nf.
  Qed.
  Lemma nf_proc_type : nofuel n (proc_type n).
  Proof. unfold proc_type. nf. Qed.
  Lemma nf_number : nofuel n number_p.
  Proof. unfold number_p. nf. Qed.
  Lemma nf_procedure : nofuel n (procedure_p n).
  Proof.
    pose proof nf_proc_type. pose proof (reads_shrinks (@proc_type_w n)).
    pose proof nf_number. pose proof (reads_shrinks number_w). unfold procedure_p. nf.
  Qed.
  Lemma nf_version : nofuel n (version_p n).
  Proof.
    pose proof nf_procedure. pose proof (reads_shrinks (@procedure_w n)).
    pose proof nf_number. pose proof (reads_shrinks number_w). unfold version_p. nf.
  Qed.
  Lemma nf_program : nofuel n (program_p n).
  Proof.
    pose proof nf_version. pose proof (reads_shrinks (@version_w n)).
    pose proof nf_number. pose proof (reads_shrinks number_w). unfold program_p. nf.
  Qed.
  Lemma nf_definition : nofuel n (definition_p n).
  Proof.
    unfold definition_p, alt. cbn [fold_right].
    pose proof nf_type_def. pose proof (reads_shrinks (@type_def_w n)).
    pose proof nf_program. pose proof (reads_shrinks (@program_w n)).
    pose proof (@nf_constant_def n). pose proof (@nf_comment_line n).
    assert (shrinks constant_def).
    { intros i a r E. apply constant_def_w in E as [_ W]. eapply w_length; eauto. }
    assert (shrinks comment_line).
    { intros i a r E. apply comment_line_w in E. eapply w_length; eauto. }
    nf.
  Qed.
  Lemma nf_specification : nofuel n (specification n).
  Proof. pose proof nf_definition. pose proof (@shrinks_definition n). unfold specification. nf. Qed.

  Lemma definition_consumes : consumes (definition_p n).
  Proof.
    intros i d r H. apply definition_w in H as [_ W].
    assert (K : exists p l, w_definition d = p :: l /\ ((exists s, p = Lit s /\ s <> ""%string) \/ p = Line)).
    { destruct d as [[]| | |[]]; cbn [w_definition w_typedef w_program app]; eexists _, _; (split; [reflexivity|]);
        first [now right|left; eexists; split; [reflexivity|discriminate]]. }
    destruct K as (p & l & E & K). rewrite E in W. apply w_cons_inv in W as (t & j & -> & P & W).
    apply w_length in W. rewrite app_length. destruct K as [(s & -> & NE)| ->].
    - cbn in P. subst t. destruct s; [congruence|]. cbn. lia.
    - destruct P as (b & _ & [-> | ->]); cbn; lia.
  Qed.

  Lemma parse_total i : (length i < n)%nat ->
    parse n i = GErr GTrailingData \/ exists ds, parse n i = GOk ds.
  Proof.
    intros H. unfold parse. pose proof (nf_specification H) as F.
    destruct (specification n i) as [l [|c r]| |] eqn:E; [eauto|auto| |congruence].
    exfalso. unfold specification, many0 in E. revert E. generalize (S (length i)). clear - n.
    intros k. revert i. induction k as [|k IH]; intros i; cbn [many0_n]; [discriminate|].
    destruct (delimited comment0 (definition_p n) comment0 i) as [d j| |] eqn:D; try discriminate.
    apply delimited_ok in D as (a & c & i1 & i2 & D1 & D2 & D3).
    apply shrinks_comment0 in D1. apply definition_consumes in D2. apply shrinks_comment0 in D3.
    destruct (Nat.eqb_spec (length j) (length i)) as [Q|_]; [lia|].
    specialize (IH j). destruct (many0_n k _ j); congruence.
  Qed.
End Spec.
