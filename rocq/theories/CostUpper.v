(** C109: when nothing is nested, or nothing deeply, the steps are bounded by a polynomial. *)
From Verif Require Import Base Nom Keyword Ast ParserModel CostModel SpecGrammar SpecCost NomFacts ParseSound ParseTotal
  ParseComplete CostProofs.
Set Implicit Arguments.
Unset Strict Implicit.
Local Open Scope string_scope.
Open Scope list_scope.
Open Scope Z_scope.

(** on texts shorter than [M], [c] takes at most [b] steps and leaves no more than it gets *)
Definition within (M b : Z) {A} (c : cparser A) : Prop :=
  0 <= b /\ forall i, zlen i < M -> snd (c i) <= b /\ forall a r, fst (c i) = POk a r -> zlen r <= zlen i.

Lemma wi_le {A} M b b' (c : cparser A) : within M b c -> b <= b' -> within M b' c.
Proof. intros [P H] L. split; [lia|]. intros i I. destruct (H i I). split; [lia|assumption]. Qed.
Lemma wi_once {A} M (p : nparser A) : shrinks p -> within M 1 (once p).
Proof. intros S. split; [lia|]. intros i _. split; [cbn; lia|]. intros a r E. apply S in E. unfold zlen. lia. Qed.
Lemma wi_bind {A B} M b b' (c : cparser A) (d : A -> cparser B) :
  within M b c -> (forall a, within M b' (d a)) -> 0 <= b' -> within M (b + b') (c_bind c d).
Proof.
  intros [P C] D P'. split; [lia|]. intros i I. destruct (C i I) as [C1 C2]. unfold c_bind.
  destruct (c i) as [[a r| |] m]; cbn [fst snd] in *; [|split; [lia|discriminate]..].
  specialize (C2 a r eq_refl). destruct (D a) as [_ E]. destruct (E r ltac:(lia)) as [E1 E2].
  destruct (d a r) as [x k]; cbn [fst snd] in *. split; [lia|]. intros a' r' ->. specialize (E2 a' r' eq_refl). lia.
Qed.
Lemma wi_ret {A} M (a : A) : within M 0 (c_ret a).
Proof. split; [lia|]. intros i _. split; [cbn; lia|]. intros x r [= _ <-]. lia. Qed.
Lemma wi_map {A B} M b (c : cparser A) (f : A -> B) : within M b c -> within M b (c_pmap c f).
Proof. intros C. replace b with (b + 0) by lia. apply wi_bind; [exact C| |lia]. intros a. apply wi_ret. Qed.
Lemma wi_preceded {A B} M b b' (c : cparser A) (d : cparser B) :
  within M b c -> within M b' d -> within M (b + b') (c_preceded c d).
Proof. intros C D. apply wi_bind; [exact C|auto|apply D]. Qed.
Lemma wi_terminated {A B} M b b' (c : cparser A) (d : cparser B) :
  within M b c -> within M b' d -> within M (b + b') (c_terminated c d).
Proof. intros C D. apply wi_bind; [exact C| |apply D]. intros a. exact (wi_map (fun _ => a) D). Qed.
Lemma wi_pair {A B} M b b' (c : cparser A) (d : cparser B) :
  within M b c -> within M b' d -> within M (b + b') (c_pair c d).
Proof. intros C D. apply wi_bind; [exact C| |apply D]. intros a. exact (wi_map (fun x => (a, x)) D). Qed.
Lemma wi_delimited {A B C} M b b' b'' (c : cparser A) (d : cparser B) (e : cparser C) :
  within M b c -> within M b' d -> within M b'' e -> within M (b + (b' + b'')) (c_delimited c d e).
Proof. intros P Q R. apply wi_preceded; [exact P|]. now apply wi_terminated. Qed.
Lemma wi_opt {A} M b (c : cparser A) : within M b c -> within M b (c_opt c).
Proof.
  intros [P C]. split; [exact P|]. intros i I. destruct (C i I) as [C1 C2]. unfold c_opt.
  destruct (c i) as [[a r| |] m]; cbn [fst snd] in *; (split; [lia|]); intros x s; [intros [= _ <-]; eauto|intros [= _ <-]; lia|discriminate].
Qed.
Lemma wi_peek {A} M b (c : cparser A) : within M b c -> within M b (c_peek c).
Proof.
  intros [P C]. split; [exact P|]. intros i I. destruct (C i I) as [C1 C2]. unfold c_peek.
  destruct (c i) as [[a r| |] m]; cbn [fst snd] in *; (split; [lia|]); intros x s; [intros [= _ <-]; lia|discriminate..].
Qed.
Lemma wi_recognize {A} M b (c : cparser A) : within M b c -> within M b (c_recognize c).
Proof.
  intros [P C]. split; [exact P|]. intros i I. destruct (C i I) as [C1 C2]. unfold c_recognize.
  destruct (c i) as [[a r| |] m]; cbn [fst snd] in *; (split; [lia|]); intros x s; [intros [= _ <-]; eauto|discriminate..].
Qed.
Lemma wi_verify {A} M b (c : cparser A) f : within M b c -> within M b (c_verify c f).
Proof.
  intros [P C]. split; [exact P|]. intros i I. destruct (C i I) as [C1 C2]. unfold c_verify.
  destruct (c i) as [[a r| |] m]; cbn [fst snd] in *; (split; [lia|]); intros x s; [|discriminate..].
  destruct (f a); [|discriminate]. intros [= _ <-]. eauto.
Qed.
Lemma wi_por {A} M b b' (c d : cparser A) : within M b c -> within M b' d -> within M (b + b') (c_por c d).
Proof.
  intros [P C] [P' D]. split; [lia|]. intros i I. destruct (C i I) as [C1 C2]. destruct (D i I) as [D1 D2]. unfold c_por.
  destruct (c i) as [[a r| |] m]; cbn [fst snd] in *; [split; [lia|exact C2]| |split; [lia|discriminate]].
  destruct (d i) as [x k]; cbn [fst snd] in *. split; [lia|exact D2].
Qed.
Lemma wi_fail {A} M : within M 0 (@c_pfail A).
Proof. split; [lia|]. intros i _. split; [cbn; lia|discriminate]. Qed.
Lemma wi_many0 {A} M b (c : cparser A) : within M b c -> 0 <= M -> within M (M * b) (c_many0 c).
Proof.
  intros [P C] PM. split; [nia|]. intros i I.
  assert (K : forall n i, zlen i < M -> snd (c_many0_n n c i) <= Z.of_nat n * b /\
    forall a r, fst (c_many0_n n c i) = POk a r -> zlen r <= zlen i).
  { clear i I. induction n as [|n IH]; intros i I; [split; [cbn; lia|discriminate]|]. cbn [c_many0_n].
    destruct (C i I) as [C1 C2]. destruct (c i) as [[a r| |] m]; cbn [fst snd] in *;
      [|split; [nia|intros x s [= _ <-]; lia]|split; [nia|discriminate]].
    specialize (C2 a r eq_refl). destruct (Nat.eqb _ _); [cbn [fst snd]; split; [nia|discriminate]|].
    destruct (IH r ltac:(lia)) as [I1 I2].
    destruct (c_many0_n n c r) as [[l s| |] k]; cbn [fst snd] in *; (split; [nia|]); [|discriminate..].
    intros x y [= _ <-]. specialize (I2 l s eq_refl). lia. }
  destruct (K (S (length i)) i I) as [K1 K2]. split; [|exact K2]. unfold c_many0. unfold zlen in I. nia.
Qed.
Lemma wi_many1 {A} M b (c : cparser A) : within M b c -> 0 <= M -> within M (b + M * b) (c_many1 c).
Proof. intros C PM. apply wi_bind; [exact C| |destruct C; nia]. intros a. apply wi_map. now apply wi_many0. Qed.
Lemma wi_separated {A B} M b b' (c : cparser A) (d : cparser B) : within M b c -> within M b' d -> 0 <= M ->
  within M (b + M * (b' + b)) (c_separated_list1 d c).
Proof.
  intros C D PM. apply wi_bind; [exact C| |destruct C, D; nia]. intros a. apply wi_map, wi_many0; [|exact PM].
  now apply wi_preceded.
Qed.

Lemma shrinks_line_ending : shrinks line_ending.
Proof.
  intros [|c i] a r H; cbn in H; [discriminate|]. destruct (Ascii.eqb c lf); [injection H as _ <-; cbn; lia|].
  destruct (Ascii.eqb c cr); [|discriminate]. destruct i as [|d i]; [discriminate|].
  destruct (Ascii.eqb d lf); [|discriminate]. injection H as _ <-. cbn. lia.
Qed.

Ltac wi := repeat first
  [ eassumption
  | simple eapply wi_map | simple eapply wi_pair | simple eapply wi_preceded | simple eapply wi_terminated
  | simple eapply wi_delimited | simple eapply wi_opt | simple eapply wi_peek | simple eapply wi_recognize
  | simple eapply wi_verify | simple eapply wi_por | simple apply wi_fail | simple eapply wi_many0
  | simple eapply wi_many1 | simple eapply wi_separated
  | apply wi_once; first [apply shrinks_tag|apply shrinks_ms0|apply shrinks_ms1|apply shrinks_tw1
      |apply shrinks_one_of|apply shrinks_take_until|apply shrinks_not_line_ending|apply shrinks_line_ending]
  | lia ].

Section Bounds.
  Variable M : Z.
  Hypothesis P : 1 <= M.

  Lemma wi_comment0 : within M (9 * M) c_comment0.
  Proof. eapply wi_le; [unfold c_comment0, c_comment; wi|lia]. Qed.
  Lemma wi_identifier : within M (4 * M) c_identifier.
  Proof. eapply wi_le; [unfold c_identifier, c_alt; cbn [fold_right]; wi|lia]. Qed.
  Lemma wi_value : within M (14 * M) c_value_p.
  Proof.
    pose proof wi_identifier. eapply wi_le.
    - unfold c_value_p, c_constant_p, c_decimal_nonzero, c_hexadecimal, c_octal, c_alt. cbn [fold_right]. wi.
    - lia.
  Qed.
  Lemma wi_assign : within M (37 * M) c_assign_p.
  Proof.
    pose proof wi_comment0. pose proof wi_identifier. pose proof wi_value. eapply wi_le; [unfold c_assign_p; wi|lia].
  Qed.
  Lemma wi_enum_body : within M (120 * (M * M)) c_enum_body.
  Proof.
    pose proof wi_comment0. pose proof wi_assign. assert (M <= M * M) by nia.
    eapply wi_le; [unfold c_enum_body; wi|nia].
  Qed.

  Section Spec.
    Variables (T : Z) (c : cparser tyspec).
    Hypothesis C : within M T c.

    Ltac use := pose proof wi_comment0; pose proof wi_identifier; pose proof wi_value; pose proof wi_assign;
      pose proof wi_enum_body; pose proof (proj1 C); pose proof P;
      assert (M <= M * M) by nia; assert (M * M <= M * M * M) by nia; assert (T <= M * T) by nia.

    Lemma wi_declaration : within M (150 * M + 4 * T) (c_declaration c).
    Proof. use. eapply wi_le; [unfold c_declaration, c_alt; cbn [fold_right]; wi|lia]. Qed.
    Lemma wi_case_spec : within M (300 * (M * M) + 4 * T) (c_case_spec c).
    Proof. use. pose proof wi_declaration. eapply wi_le; [unfold c_case_spec, c_case_label; wi|lia]. Qed.
    Lemma wi_struct_body : within M (360 * (M * M) + 8 * (M * T)) (c_struct_body c).
    Proof. use. pose proof wi_declaration. eapply wi_le; [unfold c_struct_body; wi|lia]. Qed.
    Lemma wi_union_body : within M (1100 * (M * M * M) + 16 * (M * T)) (c_union_body c).
    Proof. use. pose proof wi_declaration. pose proof wi_case_spec. eapply wi_le; [unfold c_union_body; wi|lia]. Qed.
    Lemma wi_alts : within M (1700 * (M * M * M) + 24 * (M * T)) (c_type_specifier_alts c).
    Proof.
      use. pose proof wi_struct_body. pose proof wi_union_body.
      eapply wi_le; [unfold c_type_specifier_alts, c_unsigned_p, c_word_p, c_alt, c_enum_type_spec, c_struct_type_spec, c_union_type_spec;
                     cbn [fold_right]; wi|lia].
    Qed.
  End Spec.
End Bounds.

(** ** All the way up *)
Definition level (M : Z) (n : nat) : Z := (2000 * M) ^ Z.of_nat n * (M * M).
Lemma level_ge M n : 1 <= M -> M * M <= level M n.
Proof.
  intros P. unfold level. assert (0 < (2000 * M) ^ Z.of_nat n) by (apply Z.pow_pos_nonneg; lia). nia.
Qed.
Lemma wi_type_specifier M n : 1 <= M -> within M (level M n) (c_type_specifier n).
Proof.
  intros P. induction n as [|n IH].
  - pose proof (@level_ge M 0 P). split; [nia|]. intros i _. cbn [c_type_specifier fst snd]. split; [nia|discriminate].
  - cbn [c_type_specifier]. eapply wi_le; [exact (wi_alts P IH)|].
    pose proof (@level_ge M n P) as G. unfold level in *. rewrite Nat2Z.inj_succ, Z.pow_succ_r by lia.
    replace (2000 * M * (2000 * M) ^ Z.of_nat n * (M * M)) with (2000 * (M * ((2000 * M) ^ Z.of_nat n * (M * M)))) by ring.
    set (q := (2000 * M) ^ Z.of_nat n * (M * M)) in *. clearbody q.
    assert (M * (M * M) <= M * q) by nia. lia.
Qed.

Lemma wi_specification M n : 1 <= M -> within M (6000 * (M * M * M) * level M n) (c_specification n).
Proof.
  intros P. pose proof (@level_ge M n P) as G. pose proof (@wi_type_specifier M n P) as C. set (T := level M n) in *. clearbody T.
  pose proof (wi_comment0 P) as W0. pose proof (wi_identifier P) as W1. pose proof (wi_value P) as W2. pose proof (wi_assign P) as W3.
  pose proof (wi_enum_body P) as W4. pose proof (wi_declaration P C) as W5. pose proof (wi_struct_body P C) as W6.
  pose proof (wi_union_body P C) as W7.
  assert (1 <= T) by nia.
  assert (M <= M * M) by nia. assert (M * M <= M * M * M) by nia. assert (T <= M * T) by nia.
  assert (D1 : within M (2000 * (M * M * M) + 40 * (M * T)) (c_type_def n)).
  { eapply wi_le; [unfold c_type_def, c_alt; cbn [fold_right]; wi|lia]. }
  assert (D2 : within M (2 * T + 40 * M) (c_procedure_p n)).
  { eapply wi_le; [unfold c_procedure_p, c_proc_type, c_number_p, c_alt; cbn [fold_right]; wi|lia]. }
  assert (D3 : within M (120 * (M * M) + 4 * (M * T)) (c_version_p n)).
  { eapply wi_le; [unfold c_version_p, c_number_p; wi|lia]. }
  assert (M * M * M <= M * (M * T)) by nia. assert (M * T <= M * (M * T)) by nia.
  assert (D4 : within M (300 * (M * M * M) + 8 * (M * (M * T))) (c_program_p n)).
  { eapply wi_le; [unfold c_program_p, c_number_p; wi|lia]. }
  assert (D5 : within M (2500 * (M * M * M) + 48 * (M * (M * T))) (c_definition_p n)).
  { eapply wi_le; [unfold c_definition_p, c_constant_def, c_comment_line, c_alt; cbn [fold_right]; wi|lia]. }
  eapply wi_le; [unfold c_specification; wi|]. nia.
Qed.
Lemma steps_bounded n i : steps n i <= 6000 * (zlen i + 1) ^ 5 * (2000 * (zlen i + 1)) ^ Z.of_nat n.
Proof.
  assert (P : 1 <= zlen i + 1) by (unfold zlen; lia).
  destruct (@wi_specification _ n P) as [_ W]. destruct (W i ltac:(lia)) as [B _]. unfold steps.
  etransitivity; [exact B|]. unfold level. apply Z.eq_le_incl.
  change 5 with (Z.succ (Z.succ (Z.succ (Z.succ (Z.succ 0))))). rewrite !Z.pow_succ_r by lia. rewrite Z.pow_0_r. ring.
Qed.

(** ** A larger bound on the nesting changes nothing *)
Definition agrees {A} (c d : cparser A) : Prop := forall i, fst (c i) <> PFuel -> d i = c i.

Lemma ag_refl {A} (c : cparser A) : agrees c c.
Proof. intros i _. reflexivity. Qed.
Lemma ag_bind {A B} (c c' : cparser A) (d d' : A -> cparser B) :
  agrees c c' -> (forall a, agrees (d a) (d' a)) -> agrees (c_bind c d) (c_bind c' d').
Proof.
  intros C D i. unfold c_bind. specialize (C i). destruct (c i) as [[a r| |] m] eqn:E; cbn [fst] in *; intros N.
  - rewrite C by discriminate. specialize (D a r). destruct (d a r) as [x k]; cbn [fst] in *. now rewrite D.
  - now rewrite C.
  - congruence.
Qed.
Lemma ag_map {A B} (c c' : cparser A) (f : A -> B) : agrees c c' -> agrees (c_pmap c f) (c_pmap c' f).
Proof. intros C. apply ag_bind; [exact C|]. intros a. apply ag_refl. Qed.
Lemma ag_preceded {A B} (c c' : cparser A) (d d' : cparser B) :
  agrees c c' -> agrees d d' -> agrees (c_preceded c d) (c_preceded c' d').
Proof. intros C D. apply ag_bind; auto. Qed.
Lemma ag_terminated {A B} (c c' : cparser A) (d d' : cparser B) :
  agrees c c' -> agrees d d' -> agrees (c_terminated c d) (c_terminated c' d').
Proof. intros C D. apply ag_bind; [exact C|]. intros a. apply ag_bind; [exact D|]. intros b. apply ag_refl. Qed.
Lemma ag_pair {A B} (c c' : cparser A) (d d' : cparser B) :
  agrees c c' -> agrees d d' -> agrees (c_pair c d) (c_pair c' d').
Proof. intros C D. apply ag_bind; [exact C|]. intros a. apply ag_bind; [exact D|]. intros b. apply ag_refl. Qed.
Lemma ag_delimited {A B C} (c c' : cparser A) (d d' : cparser B) (e e' : cparser C) :
  agrees c c' -> agrees d d' -> agrees e e' -> agrees (c_delimited c d e) (c_delimited c' d' e').
Proof. intros P Q R. apply ag_preceded; [exact P|]. now apply ag_terminated. Qed.
Lemma ag_opt {A} (c c' : cparser A) : agrees c c' -> agrees (c_opt c) (c_opt c').
Proof.
  intros C i. unfold c_opt. specialize (C i). destruct (c i) as [[a r| |] m]; cbn [fst] in *; intros N; [now rewrite C..|congruence].
Qed.
Lemma ag_por {A} (c c' d d' : cparser A) : agrees c c' -> agrees d d' -> agrees (c_por c d) (c_por c' d').
Proof.
  intros C D i. unfold c_por. specialize (C i). specialize (D i).
  destruct (c i) as [[a r| |] m]; cbn [fst] in *; intros N; [now rewrite C| |congruence].
  rewrite C by discriminate. destruct (d i) as [x k]; cbn [fst] in *. now rewrite D.
Qed.
Lemma ag_many0 {A} (c c' : cparser A) : agrees c c' -> agrees (c_many0 c) (c_many0 c').
Proof.
  intros C i. unfold c_many0. generalize (S (length i)). intros n. revert i.
  induction n as [|n IH]; intros i; [reflexivity|]. cbn [c_many0_n]. specialize (C i).
  destruct (c i) as [[a r| |] m]; cbn [fst] in *; intros N; [|now rewrite C|congruence].
  rewrite C by discriminate. destruct (Nat.eqb _ _); [reflexivity|]. specialize (IH r).
  destruct (c_many0_n n c r) as [[l s| |] k]; cbn [fst] in *; [now rewrite IH..|congruence].
Qed.
Lemma ag_many1 {A} (c c' : cparser A) : agrees c c' -> agrees (c_many1 c) (c_many1 c').
Proof. intros C. apply ag_bind; [exact C|]. intros a. apply ag_map. now apply ag_many0. Qed.

Ltac ag := unfold c_alt; cbn [fold_right];
  repeat first [ match goal with |- agrees ?x ?x => apply ag_refl | H : agrees ?x ?y |- agrees ?x ?y => exact H end
  | simple apply ag_map | simple apply ag_pair | simple apply ag_preceded
  | simple apply ag_terminated | simple apply ag_delimited | simple apply ag_opt | simple apply ag_por | simple apply ag_many0
  | simple apply ag_many1 ].

Lemma ag_declaration c c' : agrees c c' -> agrees (c_declaration c) (c_declaration c').
Proof. intros C. unfold c_declaration. ag. Qed.
Lemma ag_struct_body c c' : agrees c c' -> agrees (c_struct_body c) (c_struct_body c').
Proof. intros C. pose proof (ag_declaration C). unfold c_struct_body. ag. Qed.
Lemma ag_union_body c c' : agrees c c' -> agrees (c_union_body c) (c_union_body c').
Proof. intros C. pose proof (ag_declaration C). unfold c_union_body, c_case_spec. ag. Qed.
Lemma ag_alts c c' : agrees c c' -> agrees (c_type_specifier_alts c) (c_type_specifier_alts c').
Proof.
  intros C. pose proof (ag_struct_body C). pose proof (ag_union_body C).
  unfold c_type_specifier_alts, c_struct_type_spec, c_union_type_spec. ag.
Qed.
Lemma ag_type_specifier n m : (n <= m)%nat -> agrees (c_type_specifier n) (c_type_specifier m).
Proof.
  revert m. induction n as [|n IH]; intros m L; [intros i N; now cbn in N|].
  destruct m as [|m]; [lia|]. cbn [c_type_specifier]. apply ag_alts, IH. lia.
Qed.
Lemma ag_specification n m : (n <= m)%nat -> agrees (c_specification n) (c_specification m).
Proof.
  intros L. pose proof (ag_type_specifier L) as C. pose proof (ag_declaration C). pose proof (ag_struct_body C).
  pose proof (ag_union_body C).
  unfold c_specification, c_definition_p, c_type_def, c_program_p, c_version_p, c_procedure_p, c_proc_type. ag.
Qed.
Lemma parse_fuel n i : parse n i <> GFuel -> fst (c_specification n i) <> PFuel.
Proof. intros N E. apply N. unfold parse. rewrite <- (er_specification n i), E. reflexivity. Qed.
Lemma steps_stable n m i : parse n i <> GFuel -> (n <= m)%nat -> steps m i = steps n i.
Proof. intros N L. unfold steps. now rewrite (ag_specification L (parse_fuel N)). Qed.

Lemma shallow_bounded n m i : parse n i <> GFuel -> (n <= m)%nat ->
  steps m i <= 6000 * (zlen i + 1) ^ 5 * (2000 * (zlen i + 1)) ^ Z.of_nat n.
Proof. intros N L. rewrite (steps_stable N L). apply steps_bounded. Qed.

(** ** Texts in which nothing is nested *)
Lemma apart_suffix a i : apart (a ++ i) -> apart i.
Proof.
  intros [S U]. split; intros b w k W E.
  - apply (S (a ++ b) w k W). now rewrite E, <- app_assoc.
  - apply (U (a ++ b) w k W). now rewrite E, <- app_assoc.
Qed.

(** on a text in which nothing is nested, [p] takes from the front and reaches no bound *)
Definition takes {A} (p : nparser A) : Prop := forall i, apart i -> forall a r, p i = POk a r -> exists t, i = t ++ r.
Definition easy {A} (p : nparser A) : Prop := forall i, apart i -> p i <> PFuel.
Definition fine {A} (p : nparser A) : Prop := takes p /\ easy p.

Lemma takes_apart {A} (p : nparser A) i a r : takes p -> apart i -> p i = POk a r -> apart r.
Proof. intros T P E. apply T in E as (t & ->); [|exact P]. exact (apart_suffix P). Qed.
Lemma fi_bind {A B} (p : nparser A) (f : A -> nparser B) : fine p -> (forall a, fine (f a)) -> fine (pbind p f).
Proof.
  intros [T E] F. split.
  - intros i P b r H. unfold pbind in H. destruct (p i) as [a s| |] eqn:Q; try discriminate.
    pose proof (takes_apart T P Q) as P'. apply T in Q as (t & ->); [|exact P].
    apply F in H as (u & ->); [|exact P']. exists (t ++ u). now rewrite app_assoc.
  - intros i P. unfold pbind. destruct (p i) as [a s| |] eqn:Q; [|discriminate|destruct (E i P Q)].
    apply F. exact (takes_apart T P Q).
Qed.
Lemma fi_ret {A} (a : A) : fine (pret a).
Proof. split; [intros i _ b r [= _ <-]; now exists []|intros i _; discriminate]. Qed.
Lemma fi_map {A B} (p : nparser A) (f : A -> B) : fine p -> fine (pmap p f).
Proof. intros P. apply fi_bind; [exact P|]. intros a. apply fi_ret. Qed.
Lemma fi_preceded {A B} (p : nparser A) (q : nparser B) : fine p -> fine q -> fine (preceded p q).
Proof. intros P Q. now apply fi_bind. Qed.
Lemma fi_terminated {A B} (p : nparser A) (q : nparser B) : fine p -> fine q -> fine (terminated p q).
Proof. intros P Q. apply fi_bind; [exact P|]. intros a. apply fi_bind; [exact Q|]. intros b. apply fi_ret. Qed.
Lemma fi_pair {A B} (p : nparser A) (q : nparser B) : fine p -> fine q -> fine (pair p q).
Proof. intros P Q. apply fi_bind; [exact P|]. intros a. apply fi_bind; [exact Q|]. intros b. apply fi_ret. Qed.
Lemma fi_delimited {A B C} (p : nparser A) (q : nparser B) (s : nparser C) : fine p -> fine q -> fine s -> fine (delimited p q s).
Proof. intros P Q R. apply fi_preceded; [exact P|]. now apply fi_terminated. Qed.
Lemma fi_opt {A} (p : nparser A) : fine p -> fine (opt p).
Proof.
  intros [T E]. split.
  - intros i Pi b r H. unfold opt in H. destruct (p i) as [a s| |] eqn:Q; try discriminate; injection H as _ <-; [eauto|now exists []].
  - intros i P. unfold opt. specialize (E i P). destruct (p i); congruence.
Qed.
Lemma fi_peek {A} (p : nparser A) : fine p -> fine (peek p).
Proof.
  intros [T E]. split.
  - intros i Pi b r H. unfold peek in H. destruct (p i) as [a s| |] eqn:Q; try discriminate; injection H as _ <-. now exists [].
  - intros i P. unfold peek. specialize (E i P). destruct (p i); congruence.
Qed.
Lemma fi_recognize {A} (p : nparser A) : fine p -> fine (recognize p).
Proof.
  intros [T E]. split.
  - intros i Pi b r H. unfold recognize in H. destruct (p i) as [a s| |] eqn:Q; try discriminate; injection H as _ <-. eauto.
  - intros i P. unfold recognize. specialize (E i P). destruct (p i); congruence.
Qed.
Lemma fi_verify {A} (p : nparser A) f : fine p -> fine (verify p f).
Proof.
  intros [T E]. split.
  - intros i Pi b r H. unfold verify in H. destruct (p i) as [a s| |] eqn:Q; try discriminate.
    destruct (f a); [|discriminate]. injection H as _ <-. eauto.
  - intros i P. unfold verify. specialize (E i P). destruct (p i) as [a s| |]; [destruct (f a)| |]; congruence.
Qed.
Lemma fi_por {A} (p q : nparser A) : fine p -> fine q -> fine (por p q).
Proof.
  intros [T E] [T' E']. split.
  - intros i Pi b r H. unfold por in H. destruct (p i) as [a s| |] eqn:Q; [injection H as <- <-|..]; eauto. discriminate.
  - intros i P. unfold por. specialize (E i P). specialize (E' i P). destruct (p i); congruence.
Qed.
Lemma fi_fail {A} : fine (@pfail A).
Proof. split; [intros i Pi b r H; discriminate|intros i _; discriminate]. Qed.
Lemma fi_many0 {A} (p : nparser A) : fine p -> fine (many0 p).
Proof.
  intros [T E]. split.
  - intros i. unfold many0. generalize (S (length i)). intros n. revert i.
    induction n as [|n IH]; intros i Pi b r H; cbn [many0_n] in H; [discriminate|].
    destruct (p i) as [a s| |] eqn:Q; [|injection H as _ <-; now exists []|discriminate].
    destruct (Nat.eqb _ _); [discriminate|]. destruct (many0_n n p s) as [l k| |] eqn:Q'; try discriminate.
    injection H as _ <-. pose proof (takes_apart T Pi Q) as P'. apply T in Q as (t & ->); [|exact Pi].
    apply IH in Q' as (u & ->); [|exact P']. exists (t ++ u). now rewrite app_assoc.
  - intros i. unfold many0. assert (L : (length i < S (length i))%nat) by lia. revert L. generalize (S (length i)).
    intros n. revert i. induction n as [|n IH]; intros i L P; [lia|]. cbn [many0_n]. specialize (E i P).
    destruct (p i) as [a s| |] eqn:Q; [|discriminate|congruence].
    destruct (Nat.eqb_spec (length s) (length i)) as [|NE]; [discriminate|].
    assert (apart s) by exact (takes_apart T P Q). apply T in Q as (t & ->); [|exact P]. rewrite app_length in NE, L.
    specialize (IH s ltac:(lia) H). destruct (many0_n n p s); congruence.
Qed.
Lemma fi_many1 {A} (p : nparser A) : fine p -> fine (many1 p).
Proof. intros P. apply fi_bind; [exact P|]. intros a. apply fi_map. now apply fi_many0. Qed.
Lemma fi_separated {A B} (p : nparser A) (q : nparser B) : fine p -> fine q -> fine (separated_list1 q p).
Proof. intros P Q. apply fi_bind; [exact P|]. intros a. apply fi_map, fi_many0. now apply fi_preceded. Qed.

Lemma fi_tag s : fine (tag s).
Proof.
  split; [intros i Pi a r H; apply tag_ok in H; eauto|]. intros i _. unfold tag. destruct (strip _ i); discriminate.
Qed.
Lemma fi_tw0 f : fine (take_while0 f).
Proof.
  split.
  - intros i Pi a r H. unfold take_while0 in H. destruct (span f i) as [x y] eqn:S. injection H as _ <-.
    apply span_ok in S as (-> & _). eauto.
  - intros i _. unfold take_while0. destruct (span f i). discriminate.
Qed.
Lemma fi_tw1 f : fine (take_while1 f).
Proof.
  split.
  - intros i Pi a r H. unfold take_while1 in H. destruct (span f i) as [[|c x] y] eqn:S; [discriminate|]. injection H as _ <-.
    apply span_ok in S as (-> & _). eauto.
  - intros i _. unfold take_while1. destruct (span f i) as [[]]; discriminate.
Qed.
Lemma fi_one_of s : fine (one_of s).
Proof.
  split; intros [|c i]; cbn; try discriminate; destruct (existsb _ _); try discriminate.
  intros Pi a r [= _ <-]. exists [c]. reflexivity.
Qed.
Lemma fi_take_until s : fine (take_until s).
Proof.
  split; [intros i Pi a r H; apply take_until_ok in H as (-> & _); eauto|].
  intros i _. induction i as [|c i IH]; cbn [take_until]; destruct (strip _ _); try discriminate.
  destruct (take_until s i); congruence.
Qed.
Lemma fi_not_line_ending : fine not_line_ending.
Proof.
  split.
  - intros i Pi a r H. unfold not_line_ending in H. destruct (span _ i) as [x b] eqn:S.
    apply span_ok in S as (-> & _). exists x. f_equal.
    destruct b as [|c [|d b]]; [now injection H| |].
    + destruct (Ascii.eqb c cr); [discriminate|]. now injection H.
    + destruct (Ascii.eqb c cr); [destruct (Ascii.eqb d lf); [|discriminate]|]; now injection H.
  - intros i _. unfold not_line_ending. destruct (span _ i) as [x [|c [|d b]]]; try discriminate;
      destruct (Ascii.eqb c cr); try discriminate. destruct (Ascii.eqb d lf); discriminate.
Qed.
Lemma fi_line_ending : fine line_ending.
Proof.
  split; intros [|c i]; cbn; try discriminate; destruct (Ascii.eqb c lf).
  - intros Pi a r [= _ <-]. now exists [c].
  - destruct (Ascii.eqb c cr); [|discriminate]. destruct i as [|d i]; [discriminate|].
    destruct (Ascii.eqb d lf); [|discriminate]. intros Pi a r [= _ <-]. now exists [c; d].
  - discriminate.
  - destruct (Ascii.eqb c cr); [|discriminate]. destruct i as [|d i]; [discriminate|].
    destruct (Ascii.eqb d lf); discriminate.
Qed.

Ltac fi := unfold alt; cbn [fold_right];
  repeat first [ match goal with H : fine ?p |- fine ?p => exact H end
  | simple apply fi_map | simple apply fi_pair | simple apply fi_preceded | simple apply fi_terminated
  | simple apply fi_delimited | simple apply fi_opt | simple apply fi_peek | simple apply fi_recognize
  | simple apply fi_verify | simple apply fi_por | simple apply fi_fail | simple apply fi_many0
  | simple apply fi_many1 | simple apply fi_separated | simple apply fi_tag
  | apply fi_tw1 | apply fi_tw0 | simple apply fi_one_of | simple apply fi_take_until
  | simple apply fi_not_line_ending | simple apply fi_line_ending ].

Lemma fi_comment0 : fine comment0.
Proof. unfold comment0, comment. fi. Qed.
Lemma fi_identifier : fine identifier.
Proof. unfold identifier. fi. Qed.
Lemma fi_value : fine value_p.
Proof. pose proof fi_identifier. unfold value_p, constant_p, decimal_nonzero, hexadecimal, octal. fi. Qed.
Lemma fi_assign : fine assign_p.
Proof. pose proof fi_comment0. pose proof fi_identifier. pose proof fi_value. unfold assign_p. fi. Qed.
Lemma fi_enum_body : fine enum_body.
Proof. pose proof fi_comment0. pose proof fi_assign. unfold enum_body. fi. Qed.

Definition none : nparser tyspec := fun _ => PFuel.
Lemma fine_err {A} (p : nparser A) : (forall i, apart i -> p i = PErr) -> fine p.
Proof. intros H. split; intros i P; [intros a r E|]; rewrite (H i P) in *; discriminate. Qed.
Lemma ms1_reaches j : multispace1 j = PFuel -> False.
Proof. unfold multispace1, take_while1. destruct (span is_space j) as [[]]; discriminate. Qed.
Lemma struct_err : forall i, apart i -> struct_type_spec none i = PErr.
Proof.
  intros i [P _]. unfold struct_type_spec, struct_body, delimited, preceded, pair, pbind.
  destruct (tag "struct" i) as [u j| |] eqn:E1; [|reflexivity|unfold tag in E1; destruct (strip _ i); discriminate].
  apply tag_ok in E1 as ->. unfold pret.
  destruct (multispace1 j) as [w k| |] eqn:E2; [|reflexivity|destruct (ms1_reaches E2)].
  apply take_while1_ok in E2 as (-> & W & _ & _).
  destruct (tag "{" k) as [u' l| |] eqn:E3; [|reflexivity|unfold tag in E3; destruct (strip _ k); discriminate].
  apply tag_ok in E3 as ->. destruct (P [] w l W). reflexivity.
Qed.
Lemma union_err : forall i, apart i -> union_type_spec none i = PErr.
Proof.
  intros i [_ P]. unfold union_type_spec, union_body, pmap, delimited, preceded, pair, pbind.
  destruct (tag "union" i) as [u j| |] eqn:E1; [|reflexivity|unfold tag in E1; destruct (strip _ i); discriminate].
  apply tag_ok in E1 as ->. unfold pret.
  destruct (multispace1 j) as [w k| |] eqn:E2; [|reflexivity|destruct (ms1_reaches E2)].
  apply take_while1_ok in E2 as (-> & W & _ & _).
  destruct (tag "switch" k) as [u' l| |] eqn:E3; [|reflexivity|unfold tag in E3; destruct (strip _ k); discriminate].
  apply tag_ok in E3 as ->. destruct (P [] w l W). reflexivity.
Qed.
Lemma fi_type_specifier : fine (type_specifier 1).
Proof.
  cbn [type_specifier]. pose proof (fine_err struct_err). pose proof (fine_err union_err). pose proof fi_enum_body.
  pose proof fi_identifier. fold none. unfold type_specifier_alts, unsigned_p, word_p, enum_type_spec. fi.
Qed.
Lemma fi_specification : fine (specification 1).
Proof.
  pose proof fi_comment0. pose proof fi_identifier. pose proof fi_value. pose proof fi_assign. pose proof fi_enum_body.
  pose proof fi_type_specifier as T.
  assert (D : fine (declaration (type_specifier 1))) by (unfold declaration; fi).
  unfold specification, definition_p, constant_def, comment_line, type_def, program_p, version_p, procedure_p, proc_type,
    number_p, struct_body, union_body, case_spec, case_label. fi.
Qed.
Lemma apart_reads i : apart i -> parse 1 i <> GFuel.
Proof.
  intros P. unfold parse. pose proof (proj2 fi_specification i P). destruct (specification 1 i) as [l []| |]; congruence.
Qed.
Lemma apart_bounded n i : apart i -> (1 <= n)%nat -> steps n i <= 12000000 * (zlen i + 1) ^ 6.
Proof.
  intros P L. etransitivity; [exact (shallow_bounded (apart_reads P) L)|]. apply Z.eq_le_incl.
  change (Z.of_nat 1) with 1. rewrite Z.pow_1_r. change 6 with (Z.succ 5). rewrite Z.pow_succ_r by lia. ring.
Qed.
