(** C109: reading structures written inside one another takes exponentially many steps. *)
From Verif Require Import Base Nom Keyword Ast ParserModel CostModel SpecGrammar SpecCost NomFacts ParseSound ParseTotal
  ParseComplete CostProofs.
Set Implicit Arguments.
Unset Strict Implicit.
Local Open Scope string_scope.
Open Scope list_scope.
Open Scope Z_scope.

Lemma por_err {A} (c d : cparser A) i : fst (c i) = PErr -> snd (c_por c d i) = snd (c i) + snd (d i).
Proof. intros E. unfold c_por. destruct (c i) as [[] m]; try discriminate. now destruct (d i). Qed.
Lemma por_skip {A} (c d : cparser A) i : fst (c i) = PErr -> counts c -> snd (d i) <= snd (c_por c d i).
Proof. intros E C. rewrite por_err by exact E. specialize (C i). lia. Qed.
Lemma por_ge {A} (c d : cparser A) i : counts d -> snd (c i) <= snd (c_por c d i).
Proof. intros D. unfold c_por. destruct (c i) as [[] m]; cbn; try lia. specialize (D i). destruct (d i); cbn in *; lia. Qed.
Lemma bind_ge {A B} (c : cparser A) (d : A -> cparser B) i : (forall a, counts (d a)) -> snd (c i) <= snd (c_bind c d i).
Proof.
  intros D. unfold c_bind. destruct (c i) as [[a r| |] m]; cbn; try lia. specialize (D a r). destruct (d a r); cbn in *; lia.
Qed.
Lemma bind_skip {A B} (c : cparser A) (d : A -> cparser B) i a r : counts c -> fst (c i) = POk a r ->
  snd (d a r) <= snd (c_bind c d i).
Proof.
  intros C E. unfold c_bind. specialize (C i). destruct (c i) as [[b s| |] m]; try discriminate.
  injection E as -> ->. destruct (d a r); cbn in *; lia.
Qed.

Lemma erased_err {A} (c : cparser A) p i : erases c p -> p i = PErr -> fst (c i) = PErr.
Proof. intros E H. now rewrite (E i). Qed.
Ltac ers := repeat first [ simple eapply er_map | simple eapply er_delimited | simple eapply er_terminated
  | simple eapply er_preceded | simple eapply er_pair | simple eapply er_opt | eassumption | exact (er_once _) ].

Definition opening (j : text) : Prop := exists k, j = chars "int " ++ k \/ j = chars "struct {" ++ k.
Lemma nested_opening d k : opening (nested d ++ chars " a;" ++ k).
Proof.
  destruct d; cbn [nested].
  - exists (chars "a;" ++ k). left. reflexivity.
  - eexists. right. rewrite <- !app_assoc. reflexivity.
Qed.

Lemma good_a : good_name "a".
Proof. split; [cbn; eauto|]. intros H. cbn in H. repeat (destruct H as [H|H]; [discriminate|]). exact H. Qed.
Lemma a_named k : identifier (chars "a;" ++ k) = POk "a" (chars ";" ++ k).
Proof. apply (identifier_run (x := "a") (r := chars ";" ++ k)); [exact good_a|]. cbn. discriminate. Qed.
Lemma a_next k : preceded multispace1 identifier (chars " a;" ++ k) = POk "a" (chars ";" ++ k).
Proof. exact (a_named k). Qed.

Section Decl.
  Variables (c : cparser tyspec) (p : nparser tyspec) (j k : text) (t : tyspec).
  Hypothesis P : erases c p.
  Hypothesis O : opening j.
  Hypothesis R : p j = POk t (chars " a;" ++ k).

  Lemma decl_reads : declaration p j = POk (DVariable t "a") (chars ";" ++ k).
  Proof.
    unfold declaration, alt. cbn [fold_right].
    assert (E1 : tag "void" j = PErr) by (destruct O as (x & [-> | ->]); reflexivity).
    assert (E2 : tag "opaque" j = PErr) by (destruct O as (x & [-> | ->]); reflexivity).
    assert (E3 : tag "string" j = PErr) by (destruct O as (x & [-> | ->]); reflexivity).
    unfold por, pmap, pair, preceded, terminated, delimited, pbind.
    rewrite E1, E2, E3, R. pose proof (a_next k) as N. unfold preceded, pbind in N. rewrite N. reflexivity.
  Qed.
  Lemma decl_steps : 4 * snd (c j) <= snd (c_declaration c j).
  Proof.
    unfold c_declaration, c_alt. cbn [fold_right].
    assert (E1 : tag "void" j = PErr) by (destruct O as (x & [-> | ->]); reflexivity).
    assert (E2 : tag "opaque" j = PErr) by (destruct O as (x & [-> | ->]); reflexivity).
    assert (E3 : tag "string" j = PErr) by (destruct O as (x & [-> | ->]); reflexivity).
    pose proof er_identifier as EI. pose proof er_value as EV. pose proof ct_identifier as CI. pose proof ct_value as CV.
    assert (F1 : c_tag "void" j = (PErr, 1)) by (unfold c_tag, once; now rewrite E1).
    assert (F2 : c_tag "opaque" j = (PErr, 1)) by (unfold c_tag, once; now rewrite E2).
    assert (F3 : c_tag "string" j = (PErr, 1)) by (unfold c_tag, once; now rewrite E3).
    pose proof (P j) as Q. rewrite R in Q. destruct (c j) as [x m] eqn:CJ. cbn [fst snd] in *. subst x.
    set (q := c_preceded c_multispace1 c_identifier).
    assert (N : fst (q (chars " a;" ++ k)) = POk "a" (chars ";" ++ k)).
    { rewrite <- (a_next k). unfold q. er. }
    destruct (q (chars " a;" ++ k)) as [x u] eqn:QJ. cbn [fst] in N. subst x.
    do 7 (rewrite por_err;
      [|unfold c_pmap, c_pair, c_delimited, c_preceded, c_bind; rewrite ?F1, ?F2, ?F3, ?CJ, ?QJ; reflexivity]).
    assert (G : forall B (d : cparser B) (g : tyspec * B -> decl), counts d -> m <= snd (c_pmap (c_pair c d) g j)).
    { intros B d g D. replace m with (snd (c j)) by now rewrite CJ. unfold c_pmap.
      etransitivity; [|apply bind_ge; intros a; apply ct_ret].
      apply bind_ge. intros a. apply ct_bind; [exact D|]. intros b. apply ct_ret. }
    assert (Cq : counts q) by (unfold q; ct).
    match goal with |- context [c_por ?d c_pfail j] =>
      assert (HL : m <= snd (c_por d c_pfail j)) by (etransitivity; [|apply por_ge, ct_fail]; apply G; ct);
      set (yl := c_por d c_pfail j) in *; clearbody yl end.
    repeat match goal with |- context [c_pmap (c_pair c ?d) ?g j] =>
      let H := fresh "H" in assert (H : m <= snd (c_pmap (c_pair c d) g j)) by (apply G; ct);
      let y := fresh "y" in set (y := c_pmap (c_pair c d) g j) in *; clearbody y end.
    repeat match goal with |- context [c_pmap ?d ?g j] =>
      let H := fresh "H" in assert (H : 0 <= snd (c_pmap d g j)) by (apply ct_map; ct);
      let y := fresh "y" in set (y := c_pmap d g j) in *; clearbody y end.
    lia.
  Qed.
End Decl.

(** ** The text is read *)
Lemma wc p l t i j r : j = t ++ i -> piece_text p t i -> written l i r -> written (p :: l) j r.
Proof. intros ->. apply wr_cons. Qed.
Lemma one_space : spaces (chars " ") /\ chars " " <> [].
Proof. split; [repeat constructor|discriminate]. Qed.

Lemma field_written t i k : written (w_type t) (i ++ chars " a;" ++ k) (chars " a;" ++ k) ->
  written (w_decl (DVariable t "a") ++ [Bl; Lit ";"; Bl]) (i ++ chars " a;" ++ k) k.
Proof.
  intros W. cbn [w_decl]. rewrite <- app_assoc. eapply w_app; [exact W|].
  apply (wc (t := chars " ") (i := chars "a;" ++ k)); [reflexivity|exact one_space|].
  apply (wc (t := chars "a") (i := chars ";" ++ k)); [reflexivity|split; [reflexivity|cbn; discriminate]|].
  apply (wc (t := []) (i := chars ";" ++ k)); [reflexivity|constructor|].
  apply (wc (t := chars ";") (i := k)); [reflexivity|reflexivity|].
  apply (wc (t := []) (i := k)); [reflexivity|constructor|]. constructor.
Qed.

Lemma nested_written d : forall k, written (w_type (nested_type d)) (nested d ++ chars " a;" ++ k) (chars " a;" ++ k).
Proof.
  induction d as [|d IH]; intros k; cbn [nested nested_type].
  - cbn [w_type]. apply (wc (t := chars "int") (i := chars " a;" ++ k)); [reflexivity| |constructor].
    split; reflexivity.
  - change (w_type (TsStruct [DVariable (nested_type d) "a"])) with
      ([Lit "struct"; Sp1; Lit "{"; Bl] ++ ((w_decl (DVariable (nested_type d) "a") ++ [Bl; Lit ";"; Bl]) ++ []) ++ [Lit "}"]).
    rewrite app_nil_r.
    replace ((chars "struct {" ++ nested d ++ chars " a;}") ++ chars " a;" ++ k) with
      (chars "struct {" ++ nested d ++ chars " a;}" ++ chars " a;" ++ k) by now rewrite <- !app_assoc.
    set (i := nested d ++ chars " a;}" ++ chars " a;" ++ k).
    apply (wc (t := chars "struct") (i := chars " {" ++ i)); [reflexivity|reflexivity|].
    apply (wc (t := chars " ") (i := chars "{" ++ i)); [reflexivity|exact one_space|].
    apply (wc (t := chars "{") (i := i)); [reflexivity|reflexivity|].
    apply (wc (t := []) (i := i)); [reflexivity|constructor|].
    eapply w_app; [exact (field_written (k := chars "}" ++ chars " a;" ++ k) (IH _))|].
    apply (wc (t := chars "}") (i := chars " a;" ++ k)); [reflexivity|reflexivity|constructor].
Qed.
Lemma nested_good d : good_type (nested_type d) /\ no_void_prefix (nested_type d) /\ nested_type d <> TsVoid.
Proof.
  induction d as [|d (G & V & _)]; cbn [nested_type]; [now repeat split|].
  split; [|split; [exact Logic.I|discriminate]]. cbn. split; [discriminate|].
  split; [|exact Logic.I]. split; [exact G|]. split; [exact V|exact good_a].
Qed.
Lemma nested_reads d k n : (length (nested d ++ chars " a;" ++ k) < n)%nat ->
  type_specifier n (nested d ++ chars " a;" ++ k) = POk (nested_type d) (chars " a;" ++ k).
Proof. intros L. destruct (nested_good d) as (G & _ & V). exact (type_specifier_r G V (@nested_written d k) L). Qed.

Lemma good_A : good_name "A".
Proof. split; [cbn; eauto|]. intros H. cbn in H. repeat (destruct H as [H|H]; [discriminate|]). exact H. Qed.
Lemma nested_denotes d : denotes_text (nested_defs d) (nested_file d).
Proof.
  destruct (nested_good d) as (G & V & _).
  split.
  - unfold good_spec, nested_defs. constructor; [|constructor]. split; [exact good_A|].
    split; [discriminate|]. constructor; [|constructor]. split; [exact G|]. split; [exact V|exact good_a].
  - unfold nested_file. set (i := nested d ++ chars " a;" ++ chars "};").
    replace (w_spec (nested_defs d)) with ([Bl; Lit "struct"; Sp1; Name "A"; Bl; Lit "{"; Bl] ++
      w_type (nested_type d) ++ [Sp1; Name "a"; Bl; Lit ";"; Bl; Lit "}"; Bl; Lit ";"; Bl])
      by (unfold nested_defs, w_spec; cbn [flat_map w_definition w_typedef]; unfold w_struct_body; cbn [flat_map w_decl app];
          rewrite !app_nil_r, <- !app_assoc; reflexivity).
    apply (wc (t := []) (i := chars "struct A {" ++ i)); [reflexivity|constructor|].
    apply (wc (t := chars "struct") (i := chars " A {" ++ i)); [reflexivity|reflexivity|].
    apply (wc (t := chars " ") (i := chars "A {" ++ i)); [reflexivity|exact one_space|].
    apply (wc (t := chars "A") (i := chars " {" ++ i)); [reflexivity|split; [reflexivity|cbn; discriminate]|].
    apply (wc (t := chars " ") (i := chars "{" ++ i)); [reflexivity|apply bl_space; [reflexivity|constructor]|].
    apply (wc (t := chars "{") (i := i)); [reflexivity|reflexivity|].
    apply (wc (t := []) (i := i)); [reflexivity|constructor|].
    unfold i. eapply w_app; [apply nested_written|].
    apply (wc (t := chars " ") (i := chars "a;};")); [reflexivity|exact one_space|].
    apply (wc (t := chars "a") (i := chars ";};")); [reflexivity|split; [reflexivity|cbn; discriminate]|].
    apply (wc (t := []) (i := chars ";};")); [reflexivity|constructor|].
    apply (wc (t := chars ";") (i := chars "};")); [reflexivity|reflexivity|].
    apply (wc (t := []) (i := chars "};")); [reflexivity|constructor|].
    apply (wc (t := chars "}") (i := chars ";")); [reflexivity|reflexivity|].
    apply (wc (t := []) (i := chars ";")); [reflexivity|constructor|].
    apply (wc (t := chars ";") (i := [])); [reflexivity|reflexivity|].
    apply (wc (t := []) (i := [])); [reflexivity|constructor|constructor].
Qed.
Lemma nested_length d : length (nested d) = (12 * d + 3)%nat.
Proof. induction d as [|d IH]; [reflexivity|]. cbn [nested]. rewrite !app_length, IH. cbn. lia. Qed.
Lemma file_length d : length (nested_file d) = (12 * d + 18)%nat.
Proof. unfold nested_file. rewrite !app_length, nested_length. cbn. lia. Qed.

(** ** The steps *)
Lemma body_ge n j k t : opening j -> type_specifier n j = POk t (chars " a;" ++ k) ->
  4 * snd (c_type_specifier n j) <= snd (c_struct_body (c_type_specifier n) (chars "{" ++ j)).
Proof.
  intros O R. etransitivity; [exact (decl_steps (@er_type_specifier n) O R)|].
  pose proof ct_comment0 as C0. pose proof (ct_declaration (@ct_type_specifier n)) as CD.
  assert (E : fst (c_pair (c_tag "{") c_comment0 (chars "{" ++ j)) = POk (tt, None) j).
  { transitivity (pair (tag "{") comment0 (chars "{" ++ j)).
    - pose proof er_comment0. er.
    - destruct O as (x & [-> | ->]); reflexivity. }
  unfold c_struct_body, c_delimited. unfold c_preceded. etransitivity; [|eapply bind_skip; [ct|exact E]].
  unfold c_terminated at 1. etransitivity; [|apply bind_ge; intros a; apply ct_bind; [ct|intros b; apply ct_ret]].
  unfold c_many1. etransitivity; [|apply bind_ge; intros a; ct].
  unfold c_terminated. apply bind_ge. intros a. apply ct_bind; [ct|]. intros b. apply ct_ret.
Qed.

Lemma nested_steps d : forall n k, (length (nested d ++ chars " a;" ++ k) < n)%nat ->
  4 ^ Z.of_nat d <= snd (c_type_specifier n (nested d ++ chars " a;" ++ k)).
Proof.
  induction d as [|d IH]; intros [|n] k L; try lia; cbn [c_type_specifier];
    pose proof ct_comment0 as C0; pose proof ct_identifier as CI; pose proof ct_value as CV;
    pose proof (ct_declaration (@ct_type_specifier n)) as CD.
  - etransitivity; [|apply por_ge; ct]. cbn. lia.
  - cbn [nested] in *. rewrite <- !app_assoc in *.
    set (i := nested d ++ chars " a;}" ++ chars " a;" ++ k).
    change (chars "struct {" ++ i) with (chars "struct " ++ chars "{" ++ i).
    assert (Li : (length i < n)%nat) by (rewrite app_length in L; unfold i; cbn in L |- *; lia).
    pose proof (@body_ge n i (chars "}" ++ chars " a;" ++ k) (nested_type d) (nested_opening _ _) (nested_reads Li)) as B.
    pose proof (IH n (chars "}" ++ chars " a;" ++ k) Li) as S.
    change (nested d ++ chars " a;" ++ chars "}" ++ chars " a;" ++ k) with i in S.
    rewrite Nat2Z.inj_succ, Z.pow_succ_r by lia.
    unfold c_type_specifier_alts, c_alt. cbn [fold_right].
    do 14 (etransitivity; [|apply por_skip; [reflexivity|ct]]).
    etransitivity; [|apply por_ge; ct].
    unfold c_pmap at 1. etransitivity; [|apply bind_ge; intros a; apply ct_ret].
    unfold c_struct_type_spec, c_preceded. etransitivity; [|eapply bind_skip; [ct|reflexivity]].
    change (4 * 4 ^ Z.of_nat d <= snd (c_struct_body (c_type_specifier n) (chars "{" ++ i))). lia.
Qed.

Lemma many0_ge {A} (c : cparser A) i : counts c -> snd (c i) <= snd (c_many0 c i).
Proof.
  intros C. unfold c_many0. cbn [c_many0_n]. destruct (c i) as [[a r| |] m]; cbn [snd]; try lia.
  destruct (Nat.eqb _ _); cbn [snd]; [lia|]. pose proof (@ct_many0_n _ _ (length i) C r) as K.
  destruct (c_many0_n _ c r) as [[]]; cbn [snd] in *; lia.
Qed.

Lemma ct_enum_body : counts c_enum_body.
Proof. pose proof ct_comment0. pose proof ct_identifier. pose proof ct_value. unfold c_enum_body. ct. Qed.
Lemma ct_definition n : counts (c_definition_p n).
Proof.
  pose proof ct_comment0. pose proof ct_identifier. pose proof ct_value. pose proof ct_enum_body.
  pose proof (@ct_type_specifier n) as CT. pose proof (ct_declaration CT) as CD.
  unfold c_definition_p, c_type_def, c_program_p, c_constant_def. ct.
Qed.

Lemma file_steps d n : (length (nested_file d) < n)%nat -> 4 ^ Z.of_nat (S d) <= steps n (nested_file d).
Proof.
  intros L. rewrite file_length in L. unfold steps, nested_file.
  pose proof ct_comment0 as C0; pose proof ct_identifier as CI; pose proof ct_value as CV; pose proof ct_enum_body as CE.
  pose proof (@ct_type_specifier n) as CT. pose proof (ct_declaration CT) as CD. pose proof (@ct_definition n) as CN.
  set (i := nested d ++ chars " a;" ++ chars "};").
  change (nested d ++ chars " a;};") with i.
  assert (Li : (length i < n)%nat) by (unfold i; rewrite app_length, nested_length; cbn; lia).
  pose proof (@body_ge n i (chars "};") (nested_type d) (nested_opening _ _) (nested_reads Li)) as B.
  pose proof (@nested_steps d n (chars "};") Li) as S.
  fold i in S.
  rewrite Nat2Z.inj_succ, Z.pow_succ_r by lia.
  unfold c_specification. etransitivity; [|apply many0_ge; ct].
  unfold c_delimited, c_preceded. etransitivity; [|eapply bind_skip; [ct|reflexivity]].
  unfold c_terminated. etransitivity; [|apply bind_ge; intros a; apply ct_bind; [ct|intros b; apply ct_ret]].
  unfold c_definition_p, c_alt. cbn [fold_right].
  etransitivity; [|apply por_skip; [reflexivity|ct]]. etransitivity; [|apply por_ge; ct].
  unfold c_pmap at 1. etransitivity; [|apply bind_ge; intros a; apply ct_ret].
  unfold c_type_def, c_alt. cbn [fold_right].
  do 2 (etransitivity; [|apply por_skip; [reflexivity|ct]]). etransitivity; [|apply por_ge; ct].
  unfold c_pmap at 1. etransitivity; [|apply bind_ge; intros a; apply ct_ret].
  unfold c_delimited, c_preceded. etransitivity; [|eapply bind_skip; [ct|reflexivity]].
  unfold c_terminated at 1. etransitivity; [|apply bind_ge; intros a; apply ct_bind; [ct|intros b; apply ct_ret]].
  unfold c_pair at 1.
  assert (E : fst (c_terminated c_identifier c_comment0 (chars "A {" ++ i)) = POk "A" (chars "{" ++ i)).
  { transitivity (terminated identifier comment0 (chars "A {" ++ i)).
    - pose proof er_comment0. pose proof er_identifier. er.
    - unfold terminated, pbind. change (chars "A {" ++ i) with (chars "A" ++ chars " {" ++ i).
      rewrite (identifier_run (x := "A") (r := chars " {" ++ i) good_A) by (cbn; discriminate).
      reflexivity. }
  etransitivity; [|eapply bind_skip; [ct|exact E]].
  cbv beta. etransitivity; [|apply bind_ge; intros a; apply ct_ret]. fold i. lia.
Qed.

(** ** Powers of 4 outgrow polynomials *)
Lemma square_below m : 5 <= m -> m * m < 2 ^ m.
Proof.
  intros H. replace m with (5 + Z.of_nat (Z.to_nat (m - 5))) by lia. generalize (Z.to_nat (m - 5)). clear. intros n.
  induction n as [|n IH]; [reflexivity|]. rewrite Nat2Z.inj_succ.
  replace (5 + Z.succ (Z.of_nat n)) with (Z.succ (5 + Z.of_nat n)) by lia. rewrite Z.pow_succ_r by lia. nia.
Qed.

Lemma outgrow a k : 0 <= a -> 0 <= k -> exists d : nat, a * Z.of_nat (12 * d + 18) ^ k < 4 ^ Z.of_nat d.
Proof.
  intros A K. set (m := a + 5 * k + k + 10). exists (Z.to_nat (2 ^ m)).
  assert (P : 1 <= 2 ^ m) by (apply (Z.pow_le_mono_r 2 0 m); unfold m; lia).
  replace (Z.of_nat (12 * Z.to_nat (2 ^ m) + 18)) with (12 * 2 ^ m + 18) by lia. rewrite Z2Nat.id by lia.
  apply Z.le_lt_trans with (2 ^ a * (2 ^ (m + 5)) ^ k).
  - apply Z.mul_le_mono_nonneg; [exact A| |apply Z.pow_nonneg; lia|].
    + apply Z.lt_le_incl, Z.pow_gt_lin_r; lia.
    + apply Z.pow_le_mono_l. rewrite Z.pow_add_r by (unfold m; lia). change (2 ^ 5) with 32. lia.
  - rewrite <- Z.pow_mul_r, <- Z.pow_add_r by (unfold m; nia).
    change 4 with (2 ^ 2). rewrite <- Z.pow_mul_r by lia.
    apply Z.pow_lt_mono_r; [lia|lia|].
    pose proof (@square_below m ltac:(unfold m; lia)). unfold m in *. nia.
Qed.

Lemma reading_explodes a k : 0 <= a -> 0 <= k -> exists input ds,
  forall n, (length input < n)%nat ->
  parse n input = GOk ds /\ a * Z.of_nat (length input) ^ k < steps n input.
Proof.
  intros A K. destruct (outgrow A K) as (d & H). exists (nested_file d), (nested_defs d). intros n L. split.
  - exact (parse_complete (@nested_denotes d) L).
  - eapply Z.lt_le_trans; [|exact (file_steps L)]. rewrite file_length. eapply Z.lt_le_trans; [exact H|].
    apply Z.pow_le_mono_r; lia.
Qed.
