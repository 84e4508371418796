(** Proofs about the work of the parser (C109). *)
From Verif Require Import Base Nom Keyword Ast ParserModel CostModel SpecGrammar NomFacts ParseSound ParseTotal.
Set Implicit Arguments.
Unset Strict Implicit.
Open Scope list_scope.
Open Scope Z_scope.

(** ** Counting leaves the results as they are *)
Definition erases {A} (c : cparser A) (p : nparser A) : Prop := forall i, fst (c i) = p i.

Lemma er_once {A} (p : nparser A) : erases (once p) p.
Proof. intros i. reflexivity. Qed.
Lemma er_bind {A B} c (p : nparser A) d (q : A -> nparser B) :
  erases c p -> (forall a, erases (d a) (q a)) -> erases (c_bind c d) (pbind p q).
Proof.
  intros P Q i. unfold c_bind, pbind. rewrite <- (P i). destruct (c i) as [[a r| |] m]; cbn; try reflexivity.
  rewrite <- (Q a r). now destruct (d a r).
Qed.
Lemma er_ret {A} (a : A) : erases (c_ret a) (pret a).
Proof. intros i. reflexivity. Qed.
Lemma er_map {A B} c (p : nparser A) (f : A -> B) : erases c p -> erases (c_pmap c f) (pmap p f).
Proof. intros P. apply er_bind; [exact P|]. intros a. apply er_ret. Qed.
Lemma er_pair {A B} c (p : nparser A) d (q : nparser B) :
  erases c p -> erases d q -> erases (c_pair c d) (pair p q).
Proof. intros P Q. apply er_bind; [exact P|]. intros a. apply er_bind; [exact Q|]. intros b. apply er_ret. Qed.
Lemma er_preceded {A B} c (p : nparser A) d (q : nparser B) :
  erases c p -> erases d q -> erases (c_preceded c d) (preceded p q).
Proof. intros P Q. apply er_bind; [exact P|]. intros a. exact Q. Qed.
Lemma er_terminated {A B} c (p : nparser A) d (q : nparser B) :
  erases c p -> erases d q -> erases (c_terminated c d) (terminated p q).
Proof. intros P Q. apply er_bind; [exact P|]. intros a. apply er_bind; [exact Q|]. intros b. apply er_ret. Qed.
Lemma er_delimited {A B C} c (p : nparser A) d (q : nparser B) e (s : nparser C) :
  erases c p -> erases d q -> erases e s -> erases (c_delimited c d e) (delimited p q s).
Proof. intros P Q R. apply er_preceded; [exact P|]. now apply er_terminated. Qed.
Lemma er_opt {A} c (p : nparser A) : erases c p -> erases (c_opt c) (opt p).
Proof. intros P i. unfold c_opt, opt. rewrite <- (P i). now destruct (c i) as [[]]. Qed.
Lemma er_peek {A} c (p : nparser A) : erases c p -> erases (c_peek c) (peek p).
Proof. intros P i. unfold c_peek, peek. rewrite <- (P i). now destruct (c i) as [[]]. Qed.
Lemma er_recognize {A} c (p : nparser A) : erases c p -> erases (c_recognize c) (recognize p).
Proof. intros P i. unfold c_recognize, recognize. rewrite <- (P i). now destruct (c i) as [[]]. Qed.
Lemma er_verify {A} c (p : nparser A) f : erases c p -> erases (c_verify c f) (verify p f).
Proof. intros P i. unfold c_verify, verify. rewrite <- (P i). now destruct (c i) as [[]]. Qed.
Lemma er_por {A} c (p : nparser A) d q : erases c p -> erases d q -> erases (c_por c d) (por p q).
Proof.
  intros P Q i. unfold c_por, por. rewrite <- (P i). destruct (c i) as [[] m]; cbn; try reflexivity.
  rewrite <- (Q i). now destruct (d i).
Qed.
Lemma er_fail {A} : erases (@c_pfail A) pfail.
Proof. intros i. reflexivity. Qed.
Lemma er_many0 {A} c (p : nparser A) : erases c p -> erases (c_many0 c) (many0 p).
Proof.
  intros P i. unfold c_many0, many0. generalize (S (length i)). intros n. revert i.
  induction n as [|n IH]; intros i; [reflexivity|]. cbn [c_many0_n many0_n]. rewrite <- (P i).
  destruct (c i) as [[a r| |] m]; cbn [fst]; try reflexivity.
  destruct (Nat.eqb (length r) (length i)); [reflexivity|]. rewrite <- (IH r). now destruct (c_many0_n n c r) as [[]].
Qed.
Lemma er_many1 {A} c (p : nparser A) : erases c p -> erases (c_many1 c) (many1 p).
Proof. intros P. apply er_bind; [exact P|]. intros a. apply er_map. now apply er_many0. Qed.
Lemma er_separated {A B} c (p : nparser A) d (q : nparser B) :
  erases c p -> erases d q -> erases (c_separated_list1 d c) (separated_list1 q p).
Proof. intros P Q. apply er_bind; [exact P|]. intros a. apply er_map, er_many0. now apply er_preceded. Qed.

Ltac er := repeat first [ assumption | apply er_once | apply er_map | apply er_pair | apply er_preceded
  | apply er_terminated | apply er_delimited | apply er_opt | apply er_peek | apply er_recognize
  | apply er_verify | apply er_por | apply er_fail | apply er_many0 | apply er_many1 | apply er_separated ].

Lemma er_comment0 : erases c_comment0 comment0.
Proof. unfold c_comment0, comment0. er. Qed.
Lemma er_identifier : erases c_identifier identifier.
Proof. unfold c_identifier, identifier. er. Qed.
Lemma er_value : erases c_value_p value_p.
Proof. pose proof er_identifier. unfold c_value_p, value_p. er. Qed.
Ltac er1 := pose proof er_comment0; pose proof er_identifier; pose proof er_value.
Lemma er_assign : erases c_assign_p assign_p.
Proof. er1. unfold c_assign_p, assign_p. er. Qed.
Lemma er_enum_body : erases c_enum_body enum_body.
Proof. er1. pose proof er_assign. unfold c_enum_body, enum_body. er. Qed.

Section Erase.
  Variables (c : cparser tyspec) (p : nparser tyspec).
  Hypothesis P : erases c p.
  Lemma er_declaration : erases (c_declaration c) (declaration p).
  Proof. er1. unfold c_declaration, declaration. er. Qed.
  Lemma er_struct_body : erases (c_struct_body c) (struct_body p).
  Proof. er1. pose proof er_declaration. unfold c_struct_body, struct_body. er. Qed.
  Lemma er_case_spec : erases (c_case_spec c) (case_spec p).
  Proof. er1. pose proof er_declaration. unfold c_case_spec, case_spec. er. Qed.
  Lemma er_union_body : erases (c_union_body c) (union_body p).
  Proof. er1. pose proof er_declaration. pose proof er_case_spec. unfold c_union_body, union_body. er. Qed.
  Lemma er_alts : erases (c_type_specifier_alts c) (type_specifier_alts p).
  Proof.
    er1. pose proof er_enum_body. pose proof er_struct_body. pose proof er_union_body.
    unfold c_type_specifier_alts, type_specifier_alts. er.
  Qed.
End Erase.
Lemma er_type_specifier n : erases (c_type_specifier n) (type_specifier n).
Proof. induction n as [|n IH]; [intros i; reflexivity|]. cbn [c_type_specifier type_specifier]. now apply er_alts. Qed.
Lemma er_specification n : erases (c_specification n) (specification n).
Proof.
  er1. pose proof er_assign. pose proof er_enum_body. pose proof (@er_type_specifier n) as T.
  pose proof (er_declaration T). pose proof (er_struct_body T). pose proof (er_union_body T).
  unfold c_specification, specification, c_definition_p, definition_p, c_type_def, type_def, c_program_p, program_p. er.
Qed.

(** ** Lower bound: a structure written inside another is read four times *)
(** steps are never negative *)
Definition counts {A} (c : cparser A) : Prop := forall i, 0 <= snd (c i).

Lemma ct_once {A} (p : nparser A) : counts (once p).
Proof. intros i. cbn. lia. Qed.
Lemma ct_bind {A B} (c : cparser A) (d : A -> cparser B) : counts c -> (forall a, counts (d a)) -> counts (c_bind c d).
Proof.
  intros P Q i. unfold c_bind. specialize (P i). destruct (c i) as [[a r| |] m]; cbn in *; try lia.
  specialize (Q a r). destruct (d a r); cbn in *; lia.
Qed.
Lemma ct_ret {A} (a : A) : counts (c_ret a).
Proof. intros i. cbn. lia. Qed.
Lemma ct_map {A B} c (f : A -> B) : counts c -> counts (c_pmap c f).
Proof. intros P. apply ct_bind; [exact P|]. intros a. apply ct_ret. Qed.
Lemma ct_pair {A B} (c : cparser A) (d : cparser B) : counts c -> counts d -> counts (c_pair c d).
Proof. intros P Q. apply ct_bind; [exact P|]. intros a. apply ct_bind; [exact Q|]. intros b. apply ct_ret. Qed.
Lemma ct_preceded {A B} (c : cparser A) (d : cparser B) : counts c -> counts d -> counts (c_preceded c d).
Proof. intros P Q. apply ct_bind; [exact P|]. intros a. exact Q. Qed.
Lemma ct_terminated {A B} (c : cparser A) (d : cparser B) : counts c -> counts d -> counts (c_terminated c d).
Proof. intros P Q. apply ct_bind; [exact P|]. intros a. apply ct_bind; [exact Q|]. intros b. apply ct_ret. Qed.
Lemma ct_delimited {A B C} (c : cparser A) (d : cparser B) (e : cparser C) :
  counts c -> counts d -> counts e -> counts (c_delimited c d e).
Proof. intros P Q R. apply ct_preceded; [exact P|]. now apply ct_terminated. Qed.
Lemma ct_opt {A} (c : cparser A) : counts c -> counts (c_opt c).
Proof. intros P i. unfold c_opt. specialize (P i). now destruct (c i) as [[]]. Qed.
Lemma ct_peek {A} (c : cparser A) : counts c -> counts (c_peek c).
Proof. intros P i. unfold c_peek. specialize (P i). now destruct (c i) as [[]]. Qed.
Lemma ct_recognize {A} (c : cparser A) : counts c -> counts (c_recognize c).
Proof. intros P i. unfold c_recognize. specialize (P i). now destruct (c i) as [[]]. Qed.
Lemma ct_verify {A} (c : cparser A) f : counts c -> counts (c_verify c f).
Proof. intros P i. unfold c_verify. specialize (P i). now destruct (c i) as [[]]. Qed.
Lemma ct_por {A} (c d : cparser A) : counts c -> counts d -> counts (c_por c d).
Proof.
  intros P Q i. unfold c_por. specialize (P i). destruct (c i) as [[] m]; cbn in *; try lia.
  specialize (Q i). destruct (d i); cbn in *; lia.
Qed.
Lemma ct_fail {A} : counts (@c_pfail A).
Proof. intros i. cbn. lia. Qed.
Lemma ct_many0_n {A} (c : cparser A) n : counts c -> counts (c_many0_n n c).
Proof.
  intros P. induction n as [|n IH]; intros i; [cbn; lia|]. cbn [c_many0_n]. specialize (P i).
  destruct (c i) as [[a r| |] m]; cbn [snd] in *; try lia.
  destruct (Nat.eqb (length r) (length i)); [cbn; lia|]. specialize (IH r). destruct (c_many0_n n c r) as [[]]; cbn in *; lia.
Qed.
Lemma ct_many0 {A} (c : cparser A) : counts c -> counts (c_many0 c).
Proof. intros P i. exact (@ct_many0_n _ _ (S (length i)) P i). Qed.
Lemma ct_many1 {A} (c : cparser A) : counts c -> counts (c_many1 c).
Proof. intros P. apply ct_bind; [exact P|]. intros a. apply ct_map. now apply ct_many0. Qed.
Lemma ct_separated {A B} (c : cparser A) (d : cparser B) : counts c -> counts d -> counts (c_separated_list1 d c).
Proof. intros P Q. apply ct_bind; [exact P|]. intros a. apply ct_map, ct_many0. now apply ct_preceded. Qed.

Ltac ct := repeat first [ assumption | apply ct_once | apply ct_map | apply ct_pair | apply ct_preceded
  | apply ct_terminated | apply ct_delimited | apply ct_opt | apply ct_peek | apply ct_recognize
  | apply ct_verify | apply ct_por | apply ct_fail | apply ct_many0 | apply ct_many1 | apply ct_separated ].
Lemma ct_comment0 : counts c_comment0.
Proof. unfold c_comment0. ct. Qed.
Lemma ct_identifier : counts c_identifier.
Proof. unfold c_identifier. ct. Qed.
Lemma ct_value : counts c_value_p.
Proof. pose proof ct_identifier. unfold c_value_p. ct. Qed.
Ltac ct1 := pose proof ct_comment0; pose proof ct_identifier; pose proof ct_value.
Lemma ct_declaration c : counts c -> counts (c_declaration c).
Proof. intros P. ct1. unfold c_declaration. ct. Qed.
Lemma ct_alts c : counts c -> counts (c_type_specifier_alts c).
Proof. intros P. ct1. pose proof (ct_declaration P). unfold c_type_specifier_alts. ct. Qed.
Lemma ct_type_specifier n : counts (c_type_specifier n).
Proof. induction n as [|n IH]; [intros i; cbn; lia|]. cbn [c_type_specifier]. now apply ct_alts. Qed.
