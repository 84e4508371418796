(** Numeric constants denote their value (property C38). *)
From Verif Require Import Base Nom Ast ParserModel SpecGrammar SpecParse NomFacts.
Set Implicit Arguments.
Unset Strict Implicit.
Local Open Scope string_scope.
Local Open Scope list_scope.
Local Open Scope Z_scope.

Lemma digit_to base c d : 0 < base <= 16 -> digit c d -> d < base -> to_digit base c = Some d /\ 0 <= d.
Proof.
  intros B (n & l & E & I & ->) L. split; [|lia]. revert E.
  assert (Hn : (n < 16)%nat).
  { destruct (Nat.ltb_spec n 16); [assumption|]. lia. }
  intro E.
  do 16 (destruct n as [|n];
    [cbn in E; injection E as <-; cbn in I;
     repeat (destruct I as [<-|I];
       [unfold to_digit; cbn;
        match goal with |- context [?a <? base] => replace (a <? base) with true by (symmetry; apply Z.ltb_lt; lia) end;
        reflexivity|]); destruct I|]).
  lia.
Qed.

Definition eval (base : Z) (acc : Z) (t : text) : option Z :=
  fold_left (fun o c => match o, to_digit base c with Some v, Some d => Some (v * base + d) | _, _ => None end)
    t (Some acc).

Lemma eval_app base t c acc :
  eval base acc (t ++ [c]) =
  match eval base acc t, to_digit base c with Some v, Some d => Some (v * base + d) | _, _ => None end.
Proof. unfold eval. now rewrite fold_left_app. Qed.

Lemma numeral_eval base t v : 0 < base <= 16 -> numeral base t v -> eval base 0 t = Some v /\ 0 <= v.
Proof.
  intros B H. induction H as [|t v c d H IH D L]; [split; [reflexivity|lia]|].
  destruct IH as [IH P]; trivial. destruct (digit_to B D L) as [E Q].
  rewrite eval_app, IH, E. split; [reflexivity|nia].
Qed.

Lemma numeral_fun base t v w : 0 < base <= 16 -> numeral base t v -> numeral base t w -> v = w.
Proof.
  intros B H K. destruct (numeral_eval B H) as [E _]. destruct (numeral_eval B K) as [F _]. congruence.
Qed.

Lemma to_digit_nonneg base c d : to_digit base c = Some d -> 0 <= d.
Proof.
  unfold to_digit, is_digit, is_lower, is_upper. intro H.
  repeat match type of H with context [if ?b then _ else _] => destruct b eqn:? end;
    try discriminate; injection H as <-; lia.
Qed.

Lemma eval_cons base acc c t :
  eval base acc (c :: t) =
  match to_digit base c with Some d => eval base (acc * base + d) t | None => None end.
Proof.
  unfold eval. cbn [fold_left]. destruct (to_digit base c); [reflexivity|].
  induction t as [|a t IH]; [reflexivity|exact IH].
Qed.

Lemma eval_ge base t : forall acc v, 0 < base -> 0 <= acc -> eval base acc t = Some v -> acc <= v.
Proof.
  induction t as [|c t IH]; intros acc v B A H.
  - cbn in H. injection H as <-. lia.
  - rewrite eval_cons in H. destruct (to_digit base c) as [d|] eqn:E; [|discriminate].
    pose proof (to_digit_nonneg E). apply IH in H; nia.
Qed.

Lemma kind_bounds k : kind_min k <= 0 <= kind_max k.
Proof. destruct k; cbn; lia. Qed.

Lemma acc_pos k base t : 0 < base -> forall acc v, 0 <= acc <= kind_max k ->
  eval base acc t = Some v ->
  accumulate k base 1 acc t = if v <=? kind_max k then Some v else None.
Proof.
  intro B. pose proof (kind_bounds k) as Kb.
  induction t as [|c t IH]; intros acc v A H.
  - cbn in H. injection H as <-. cbn. replace (acc <=? kind_max k) with true; [reflexivity|]. symmetry. lia.
  - rewrite eval_cons in H. destruct (to_digit base c) as [d|] eqn:E; [|discriminate].
    pose proof (to_digit_nonneg E) as D.
    assert (Q : acc * base + d <= v) by (eapply eval_ge; [exact B| |exact H]; nia).
    assert (Q1 : 0 <= acc * base) by nia.
    cbn [accumulate]. rewrite E. unfold checked.
    destruct (v <=? kind_max k) eqn:F.
    + replace ((kind_min k <=? acc * base) && (acc * base <=? kind_max k)) with true by lia.
      replace ((kind_min k <=? acc * base + 1 * d) && (acc * base + 1 * d <=? kind_max k)) with true by lia.
      replace (acc * base + 1 * d) with (acc * base + d) by lia.
      rewrite (IH (acc * base + d) v); [now rewrite F|lia|assumption].
    + destruct ((kind_min k <=? acc * base) && (acc * base <=? kind_max k)); [|reflexivity].
      destruct ((kind_min k <=? acc * base + 1 * d) && (acc * base + 1 * d <=? kind_max k)) eqn:G; [|reflexivity].
      replace (acc * base + 1 * d) with (acc * base + d) in * by lia.
      rewrite (IH (acc * base + d) v); [now rewrite F|lia|assumption].
Qed.

Lemma acc_neg k base t : 0 < base -> forall acc v, 0 <= acc <= - kind_min k ->
  eval base acc t = Some v ->
  accumulate k base (-1) (- acc) t = if v <=? - kind_min k then Some (- v) else None.
Proof.
  intro B. pose proof (kind_bounds k) as Kb.
  induction t as [|c t IH]; intros acc v A H.
  - cbn in H. injection H as <-. cbn. replace (acc <=? - kind_min k) with true; [reflexivity|]. symmetry. lia.
  - rewrite eval_cons in H. destruct (to_digit base c) as [d|] eqn:E; [|discriminate].
    pose proof (to_digit_nonneg E) as D.
    assert (Q : acc * base + d <= v) by (eapply eval_ge; [exact B| |exact H]; nia).
    assert (Q1 : 0 <= acc * base) by nia.
    cbn [accumulate]. rewrite E. unfold checked.
    replace (- acc * base) with (- (acc * base)) by lia.
    destruct (v <=? - kind_min k) eqn:F.
    + replace ((kind_min k <=? - (acc * base)) && (- (acc * base) <=? kind_max k)) with true by lia.
      replace ((kind_min k <=? - (acc * base) + -1 * d) && (- (acc * base) + -1 * d <=? kind_max k)) with true by lia.
      replace (- (acc * base) + -1 * d) with (- (acc * base + d)) by lia.
      rewrite (IH (acc * base + d) v); [now rewrite F|lia|assumption].
    + destruct ((kind_min k <=? - (acc * base)) && (- (acc * base) <=? kind_max k)); [|reflexivity].
      destruct ((kind_min k <=? - (acc * base) + -1 * d) && (- (acc * base) + -1 * d <=? kind_max k)) eqn:G; [|reflexivity].
      replace (- (acc * base) + -1 * d) with (- (acc * base + d)) in * by lia.
      rewrite (IH (acc * base + d) v); [now rewrite F|lia|assumption].
Qed.

Lemma fits_kind k z : fits k z <-> kind_min k <= z <= kind_max k.
Proof. destruct k; cbn; lia. Qed.

Definition plain (c : ascii) : Prop := Ascii.eqb c "+" = false /\ Ascii.eqb c "-" = false.

Lemma digit_plain base c d : to_digit base c = Some d -> plain c.
Proof.
  intro H. split; apply Ascii.eqb_neq; intros ->; cbn in H; discriminate.
Qed.

Lemma radix_pos k base t v : 0 < base -> t <> [] -> eval base 0 t = Some v ->
  from_str_radix k base t = if v <=? kind_max k then Some v else None.
Proof.
  intros B N E. destruct t as [|c t]; [easy|].
  assert (P : plain c).
  { rewrite eval_cons in E. destruct (to_digit base c) eqn:F; [|discriminate]. eapply digit_plain; eassumption. }
  destruct P as [P1 P2].
  rewrite <- (acc_pos (k := k) (base := base) (t := c :: t) B (acc := 0) (v := v));
    [|pose proof (kind_bounds k); lia|exact E].
  unfold from_str_radix. destruct t; rewrite P1, P2; reflexivity.
Qed.

Lemma radix_neg k base t v : 0 < base -> t <> [] -> eval base 0 t = Some v ->
  from_str_radix k base ("-"%char :: t) =
  if kind_signed k then if v <=? - kind_min k then Some (- v) else None else None.
Proof.
  intros B N E. destruct t as [|c t]; [easy|].
  unfold from_str_radix. change (Ascii.eqb "-" "+") with false. change (Ascii.eqb "-" "-") with true.
  cbv iota. cbn [andb]. destruct (kind_signed k) eqn:K.
  - rewrite <- (acc_neg (k := k) (base := base) (t := c :: t) B (acc := 0) (v := v));
      [reflexivity|pose proof (kind_bounds k); lia|exact E].
  - cbn [accumulate]. destruct (checked k (0 * base)); reflexivity.
Qed.

Lemma digits_numeral base (f : ascii -> bool) t :
  (forall c, f c = true -> exists d, digit c d /\ d < base) ->
  Forall (fun c => f c = true) t -> exists z, numeral base t z.
Proof.
  intros F. induction t as [|c t IH] using rev_ind; intro H.
  - exists 0. constructor.
  - apply Forall_app in H. destruct H as [H1 H2]. destruct (IH H1) as [v N].
    inversion H2; subst. destruct (F _ H3) as (d & D & L). eexists. econstructor; eassumption.
Qed.

Ltac allbits := let a := fresh in intro a; destruct a as [[] [] [] [] [] [] [] []]; cbn; try discriminate; intros _.
Ltac isdig n l := exists (Z.of_nat n); split; [exists n, l; split; [reflexivity|split; [cbn; tauto|reflexivity]]|cbn; lia].

Lemma code_lt c : 0 <= code c < 256.
Proof.
  unfold code. pose proof (N_ascii_bounded c). lia.
Qed.

Ltac trydigits k :=
  first [isdig 0%nat ["0"%char] | isdig 1%nat ["1"%char] | isdig 2%nat ["2"%char] | isdig 3%nat ["3"%char]
  | isdig 4%nat ["4"%char] | isdig 5%nat ["5"%char] | isdig 6%nat ["6"%char] | isdig 7%nat ["7"%char]
  | isdig 8%nat ["8"%char] | isdig 9%nat ["9"%char]
  | isdig 10%nat ["a"; "A"]%char | isdig 11%nat ["b"; "B"]%char | isdig 12%nat ["c"; "C"]%char
  | isdig 13%nat ["d"; "D"]%char | isdig 14%nat ["e"; "E"]%char | isdig 15%nat ["f"; "F"]%char].

Lemma dec_digit c : is_digit c = true -> exists d, digit c d /\ d < 10.
Proof. revert c. allbits; trydigits tt. Qed.
Lemma oct_digit c : is_oct c = true -> exists d, digit c d /\ d < 8.
Proof. revert c. allbits; trydigits tt. Qed.
Lemma hex_digit c : is_hex c = true -> exists d, digit c d /\ d < 16.
Proof. revert c. allbits; trydigits tt. Qed.

Lemma digit_nonzero c d : is_digit c = true -> c <> "0"%char -> digit c d -> d <> 0.
Proof.
  intros _ N (n & l & E & I & ->) Z. assert (n = 0)%nat by lia. subst n. cbn in E. injection E as <-.
  cbn in I. intuition congruence.
Qed.

Lemma numeral_cons_pos base c d t v : 0 < base <= 16 -> digit c d -> d < base -> d <> 0 ->
  numeral base (c :: t) v -> 0 < v.
Proof.
  intros B D L N H. destruct (numeral_eval B H) as [E _]. rewrite eval_cons in E.
  destruct (digit_to B D L) as [F P]. rewrite F in E. apply eval_ge in E; lia.
Qed.

Definition outcome (k : intkind) (z : Z) : gres Z :=
  if (kind_min k <=? z) && (z <=? kind_max k) then GOk z else GErr GParse.

Lemma stands_outcome k c z : good_constant c -> stands_for c z -> constant_value k c = outcome k z.
Proof.
  intros G S. unfold outcome. pose proof (kind_bounds k) as Kb.
  destruct S as [t z H|t z H|t z H|t z H].
  - destruct (numeral_eval (base := 10) ltac:(lia) H) as [E P].
    unfold constant_value. rewrite list_ascii_of_string_of_list_ascii.
    rewrite (@radix_pos k 10 t z); [|lia| |assumption].
    + replace (kind_min k <=? z) with true by lia. cbn [andb]. now destruct (z <=? kind_max k).
    + intros ->. cbn in G. destruct G as [G|(m & d & t & G & _)]; [discriminate|].
      destruct m; discriminate.
  - destruct (numeral_eval (base := 10) ltac:(lia) H) as [E P].
    unfold constant_value. rewrite list_ascii_of_string_of_list_ascii.
    assert (K : t <> [] /\ 0 < z).
    { cbn in G. destruct G as [G|(m & d & t' & G & M & D & N & _)]; [discriminate|].
      rewrite list_ascii_of_string_of_list_ascii in G. destruct M as [-> | ->].
      - cbn [app] in G. injection G as <- _. discriminate.
      - cbn in G. injection G as ->. split; [discriminate|].
        destruct (dec_digit D) as (dv & DD & L). pose proof (digit_nonzero D N DD).
        eapply numeral_cons_pos; [|exact DD|exact L|assumption|exact H]. lia. }
    destruct K as [K1 K2]. rewrite (@radix_neg k 10 t z); [|lia|assumption|assumption].
    destruct (kind_signed k) eqn:S.
    + destruct k; try discriminate. cbn [kind_min kind_max] in *.
      replace (- z <=? 2 ^ 31 - 1) with true by lia. rewrite Bool.andb_true_r.
      replace (z <=? - - 2 ^ 31) with (- 2 ^ 31 <=? - z) by lia.
      now destruct (- 2 ^ 31 <=? - z).
    + replace (kind_min k <=? - z) with false; [reflexivity|].
      symmetry. destruct k; try discriminate; cbn [kind_min]; lia.
  - destruct (numeral_eval (base := 16) ltac:(lia) H) as [E P].
    unfold constant_value. rewrite list_ascii_of_string_of_list_ascii.
    rewrite (@radix_pos k 16 t z); [|lia| |assumption].
    + replace (kind_min k <=? z) with true by lia. cbn [andb]. now destruct (z <=? kind_max k).
    + intros ->. cbn in G. now destruct G as [G _].
  - destruct (numeral_eval (base := 8) ltac:(lia) H) as [E P].
    unfold constant_value. rewrite list_ascii_of_string_of_list_ascii.
    rewrite (@radix_pos k 8 t z); [|lia| |assumption].
    + replace (kind_min k <=? z) with true by lia. cbn [andb]. now destruct (z <=? kind_max k).
    + intros ->. cbn in G. now destruct G as [G _].
Qed.

Lemma constant_fits k c z : good_constant c -> stands_for c z -> fits k z -> constant_value k c = GOk z.
Proof.
  intros G S F. rewrite (stands_outcome k G S). unfold outcome. apply fits_kind in F.
  now replace ((kind_min k <=? z) && (z <=? kind_max k)) with true by lia.
Qed.

Lemma constant_overflows k c z : good_constant c -> stands_for c z -> ~ fits k z ->
  constant_value k c = GErr GParse.
Proof.
  intros G S F. rewrite (stands_outcome k G S). unfold outcome. rewrite fits_kind in F.
  now replace ((kind_min k <=? z) && (z <=? kind_max k)) with false by lia.
Qed.

Lemma stands_total c : good_constant c -> exists z, stands_for c z.
Proof.
  intro G. destruct c as [s|s|s].
  - destruct G as [->|(m & d & t & E & M & D & N & H)].
    + exists (0 * 10 + 0). apply (@sf_decimal ["0"%char]). apply (@num_snoc 10 [] 0 "0"%char 0); [constructor| |lia].
      exists 0%nat, ["0"%char]. cbn. tauto.
    + destruct (@digits_numeral 10 is_digit (d :: t) dec_digit) as [z Z]; [now constructor|].
      rewrite <- (string_of_list_ascii_of_string s), E. destruct M as [-> | ->].
      * exists z. now constructor.
      * exists (- z). change (chars "-" ++ d :: t) with ("-"%char :: d :: t). now constructor.
  - destruct G as [_ H]. destruct (digits_numeral hex_digit H) as [z Z]. exists z.
    rewrite <- (string_of_list_ascii_of_string s). now constructor.
  - destruct G as [_ H]. destruct (digits_numeral oct_digit H) as [z Z]. exists z.
    rewrite <- (string_of_list_ascii_of_string s). now constructor.
Qed.

Lemma str_inj a b : str a = str b -> a = b.
Proof.
  intro H. rewrite <- (list_ascii_of_string_of_list_ascii a), H. apply list_ascii_of_string_of_list_ascii.
Qed.

Lemma numeral_minus base t v : 0 < base <= 16 -> ~ numeral base ("-"%char :: t) v.
Proof.
  intros B H. destruct (numeral_eval B H) as [E _]. rewrite eval_cons in E. cbn in E. discriminate.
Qed.

Lemma minus_str t : String "-" (str t) = str ("-"%char :: t).
Proof. reflexivity. Qed.

Lemma stands_fun c z w : stands_for c z -> stands_for c w -> z = w.
Proof.
  intros S T. inversion S as [t v H E|t v H E|t v H E|t v H E]; subst;
    inversion T as [t' v' H' E'|t' v' H' E'|t' v' H' E'|t' v' H' E'];
    cbn [string_of_list_ascii] in E'; rewrite ?minus_str in E';
    (apply str_inj in E' || (injection E' as E'; apply str_inj in E')); subst.
  - eapply (@numeral_fun 10); eauto; lia.
  - now apply numeral_minus in H.
  - now apply numeral_minus in H'.
  - f_equal. eapply (@numeral_fun 10); eauto; lia.
  - eapply (@numeral_fun 16); eauto; lia.
  - eapply (@numeral_fun 8); eauto; lia.
Qed.
