(** C120 - C122: the texts of errors. *)
From Verif Require Import Base Nom ParserModel GenModel MainModel DisplayModel SpecDisplay.
Set Implicit Arguments.
Unset Strict Implicit.
Local Open Scope list_scope.

(** *** Numerals *)
Definition undigit (c : Z) : Z := if c <? 97 then c - 48 else c - 87.
Definition value (b : Z) (l : list Z) : Z := fold_left (fun a c => b * a + undigit c) l 0.
Definition digital (b c : Z) : Prop := exists d, 0 <= d < b /\ c = digit d.

Lemma undigit_digit d : 0 <= d < 16 -> undigit (digit d) = d.
Proof. intros H. unfold undigit, digit. destruct (d <? 10) eqn:A; [replace (48 + d <? 97) with true by lia; lia|replace (87 + d <? 97) with false by lia; lia]. Qed.
Lemma value_digits n : forall b z, 2 <= b <= 16 -> 0 <= z < b ^ Z.of_nat n -> value b (digits n b z) = z.
Proof.
  induction n as [|n IH]; intros b z B Hz; [cbn in *; lia|]. cbn [digits]. destruct (z <? b) eqn:L.
  - unfold value. cbn [fold_left]. rewrite undigit_digit; lia.
  - unfold value. rewrite fold_left_app. cbn [fold_left]. fold (value b (digits n b (z / b))).
    pose proof (Z.mod_pos_bound z b ltac:(lia)). rewrite undigit_digit by lia. rewrite IH; trivial.
    + pose proof (Z.div_mod z b ltac:(lia)). lia.
    + split; [apply Z.div_pos; lia|]. apply Z.div_lt_upper_bound; [lia|]. rewrite Nat2Z.inj_succ, Z.pow_succ_r in Hz by lia. lia.
Qed.
Lemma log_bound b z : 2 <= b -> 0 <= z -> z < b ^ Z.of_nat (S (Z.to_nat (Z.log2 z))).
Proof.
  intros B Hz. pose proof (Z.log2_nonneg z). rewrite Nat2Z.inj_succ, Z2Nat.id by lia.
  apply Z.lt_le_trans with (2 ^ Z.succ (Z.log2 z)); [|apply Z.pow_le_mono_l; lia].
  destruct (Z.eq_dec z 0) as [->|]; [cbn; lia|]. apply Z.log2_spec. lia.
Qed.
Lemma value_numeral b z : 2 <= b <= 16 -> 0 <= z -> value b (numeral b z) = z.
Proof. intros B Hz. apply value_digits; trivial. split; [trivial|apply log_bound; lia]. Qed.
Lemma numeral_inj b z z' : 2 <= b <= 16 -> 0 <= z -> 0 <= z' -> numeral b z = numeral b z' -> z = z'.
Proof. intros B H H' E. rewrite <- (value_numeral B H), <- (value_numeral B H'). now rewrite E. Qed.
Lemma digits_digital n : forall b z, 2 <= b -> 0 <= z -> Forall (digital b) (digits n b z).
Proof.
  induction n as [|n IH]; intros b z B Hz; [constructor|]. cbn [digits]. destruct (z <? b) eqn:L.
  - constructor; [|constructor]. exists z. split; [lia|reflexivity].
  - apply Forall_app. split; [apply IH; trivial; apply Z.div_pos; lia|]. constructor; [|constructor].
    exists (z mod b). split; [apply Z.mod_pos_bound; lia|reflexivity].
Qed.
Lemma numeral_chars b z c : 2 <= b <= 16 -> 0 <= z -> In c (numeral b z) -> 48 <= c <= 57 \/ b > 10 /\ 97 <= c <= 102.
Proof.
  intros B Hz I. pose proof (@digits_digital (S (Z.to_nat (Z.log2 z))) b z ltac:(lia) Hz) as F. rewrite Forall_forall in F.
  apply F in I as (d & D & ->). unfold digit. destruct (d <? 10) eqn:A; lia.
Qed.
Lemma digits_lead n : forall b z, 2 <= b <= 16 -> 0 < z -> z < b ^ Z.of_nat n -> exists c l, digits n b z = c :: l /\ c <> 48.
Proof.
  induction n as [|n IH]; intros b z B Hz U; [cbn in *; lia|]. cbn [digits]. destruct (z <? b) eqn:L.
  - exists (digit z), []. split; [reflexivity|]. unfold digit. destruct (z <? 10); lia.
  - destruct (IH b (z / b)) as (c & l & -> & N); trivial.
    + apply Z.div_str_pos. lia.
    + apply Z.div_lt_upper_bound; [lia|]. rewrite Nat2Z.inj_succ, Z.pow_succ_r in U by lia. lia.
    + exists c, (l ++ [digit (z mod b)]). now split.
Qed.
Lemma numeral_decimal z : 0 <= z -> decimal (numeral 10 z) z.
Proof.
  intros Hz. assert (F : Forall (fun c => 48 <= c <= 57) (numeral 10 z)).
  { apply Forall_forall. intros c I. apply numeral_chars in I; lia. }
  split; [exact F|]. split.
  - rewrite <- (@value_numeral 10 z) at 2 by lia. unfold value. generalize 0 as a. induction F as [|c l C _ IH]; intros a; [reflexivity|].
    cbn [fold_left]. rewrite IH. unfold undigit. now replace (c <? 97) with true by lia.
  - destruct (Z.eq_dec z 0) as [->|]; [exact I|].
    destruct (@digits_lead (S (Z.to_nat (Z.log2 z))) 10 z) as (c & l & E & N); [lia|lia|apply log_bound; lia|].
    unfold numeral. rewrite E. now destruct l.
Qed.

(** *** Separators *)
Lemma sep_inj {A} (a : A) p : forall p' q q', ~ In a p -> ~ In a p' -> p ++ a :: q = p' ++ a :: q' -> p = p' /\ q = q'.
Proof.
  induction p as [|b p IH]; intros [|b' p'] q q' N N' E; cbn in E.
  - now injection E as ->.
  - injection E as E _. destruct N'. now left.
  - injection E as E _. destruct N. now left.
  - injection E as -> E. destruct (IH p' q q') as [-> ->]; trivial; [intros K; apply N|intros K; apply N'|now split]; now right.
Qed.
Lemma num_sep b z z' c q q' : 2 <= b <= 16 -> 0 <= z -> 0 <= z' -> ~ (48 <= c <= 57) -> ~ (97 <= c <= 102) ->
  numeral b z ++ c :: q = numeral b z' ++ c :: q' -> z = z' /\ q = q'.
Proof.
  intros B H H' C1 C2 E. apply sep_inj in E as [E ->].
  - split; [exact (numeral_inj B H H' E)|reflexivity].
  - intros I. apply numeral_chars in I; lia.
  - intros I. apply numeral_chars in I; lia.
Qed.

(** *** Escapes *)
Section Plain.
  Variable plain : Z -> bool.
  Definition special (c : Z) : Prop := In c [0; 9; 13; 10; 92; 34].
  Lemma escape_cases c : (special c /\ exists d, escape plain c = [92; d] /\ In (c, d) [(0, 48); (9, 116); (13, 114); (10, 110); (92, 92); (34, 34)]) \/
    (~ special c /\ plain c = true /\ escape plain c = [c]) \/
    (~ special c /\ plain c = false /\ escape plain c = [92; 117; 123] ++ numeral 16 c ++ [125]).
  Proof.
    unfold escape, special.
    destruct (c =? 0) eqn:E1; [apply Z.eqb_eq in E1; subst; left; split; [cbn; tauto|eexists; split; [reflexivity|cbn; tauto]]|].
    destruct (c =? 9) eqn:E2; [apply Z.eqb_eq in E2; subst; left; split; [cbn; tauto|eexists; split; [reflexivity|cbn; tauto]]|].
    destruct (c =? 13) eqn:E3; [apply Z.eqb_eq in E3; subst; left; split; [cbn; tauto|eexists; split; [reflexivity|cbn; tauto]]|].
    destruct (c =? 10) eqn:E4; [apply Z.eqb_eq in E4; subst; left; split; [cbn; tauto|eexists; split; [reflexivity|cbn; tauto]]|].
    destruct (c =? 92) eqn:E5; [apply Z.eqb_eq in E5; subst; left; split; [cbn; tauto|eexists; split; [reflexivity|cbn; tauto]]|].
    destruct (c =? 34) eqn:E6; [apply Z.eqb_eq in E6; subst; left; split; [cbn; tauto|eexists; split; [reflexivity|cbn; tauto]]|].
    right. assert (N : ~ In c [0; 9; 13; 10; 92; 34]) by (cbn; lia).
    destruct (plain c); [left|right]; auto.
  Qed.
  Lemma escape_head c : exists d l, escape plain c = d :: l /\ d <> 34.
  Proof.
    destruct (escape_cases c) as [(_ & d & -> & _)|[(N & _ & ->)|(_ & _ & ->)]].
    - exists 92, [d]. split; [reflexivity|lia].
    - exists c, []. split; [reflexivity|]. intros ->. apply N. cbn. auto 10.
    - eexists 92, _. split; [reflexivity|lia].
  Qed.
  Lemma escape_inj c c' r r' : 0 <= c -> 0 <= c' -> escape plain c ++ r = escape plain c' ++ r' -> c = c' /\ r = r'.
  Proof.
    intros H H' E.
    destruct (escape_cases c) as [(S1 & d & E1 & I)|[(N & P & E1)|(N & P & E1)]];
      destruct (escape_cases c') as [(S2 & d' & E2 & I')|[(N' & P' & E2)|(N' & P' & E2)]]; rewrite E1, E2 in E; cbn in E.
    - injection E as -> ->. split; [|reflexivity]. cbn in I, I'. intuition congruence.
    - injection E as <- _. destruct N'. cbn. auto 10.
    - injection E as -> _. cbn in I. intuition congruence.
    - injection E as -> _. destruct N. cbn. auto 10.
    - injection E as -> ->. now split.
    - injection E as -> _. destruct N. cbn. auto 10.
    - injection E as <- _. cbn in I'. intuition congruence.
    - injection E as <- _. destruct N'. cbn. auto 10.
    - rewrite <- !app_assoc in E. cbn in E. injection E as E. apply num_sep in E; trivial; lia.
  Qed.
  Lemma escapes_inj s : forall s' r r', Forall (fun c => 0 <= c) s -> Forall (fun c => 0 <= c) s' ->
    flat_map (escape plain) s ++ 34 :: r = flat_map (escape plain) s' ++ 34 :: r' -> s = s' /\ r = r'.
  Proof.
    induction s as [|c s IH]; intros [|c' s'] r r' F F' E; cbn [flat_map] in E.
    - now injection E as ->.
    - destruct (escape_head c') as (d & l & K & N). rewrite K in E. cbn in E. injection E as E _. congruence.
    - destruct (escape_head c) as (d & l & K & N). rewrite K in E. cbn in E. injection E as E _. congruence.
    - rewrite <- !app_assoc in E. inversion F; inversion F'; subst. apply escape_inj in E as [-> E]; trivial.
      apply IH in E as [-> ->]; trivial. now split.
  Qed.
  Lemma debug_str_inj s s' r r' : Forall (fun c => 0 <= c) s -> Forall (fun c => 0 <= c) s' ->
    debug_str plain s ++ r = debug_str plain s' ++ r' -> s = s' /\ r = r'.
  Proof.
    intros F F' E. unfold debug_str in E. rewrite <- !app_assoc in E. cbn in E. injection E as E. exact (escapes_inj F F' E).
  Qed.

  (** *** C120 *)
  Local Opaque numeral.
  Lemma display_inj e e' : sane e -> sane e' -> display_xdr plain e = display_xdr plain e' -> e = e'.
  Proof.
    intros S1 S2 E. unfold display_xdr in E. apply app_inv_head in E.
    destruct e as [s| |k l|k| | |k], e' as [s'| |k' l'|k'| | |k']; try reflexivity; cbn in S1, S2; cbn [debug_xdr] in E;
      try (cbn in E; discriminate E).
    - apply app_inv_head in E. apply debug_str_inj in E as [-> _]; trivial.
    - apply app_inv_head in E. destruct S1 as [S1 S3], S2 as [S2 S4]. apply num_sep in E as [-> E]; try lia; try (cbn; lia).
      injection E as E. f_equal. destruct l as [j|], l' as [j'|]; trivial; cbn in E; try discriminate E.
      injection E as E. rewrite <- !app_assoc in E. cbn in E. apply num_sep in E as [-> _]; trivial; cbn; lia.
    - apply app_inv_head in E. apply num_sep in E as [-> _]; trivial; cbn; lia.
    - apply app_inv_head in E. apply num_sep in E as [-> _]; trivial; cbn; lia.
  Qed.

  (** *** C121 *)
  Lemma codes_print s : Forall ascii_print (codes s) -> forall c, In c (codes s) -> ascii_print c.
  Proof. intros F c. rewrite Forall_forall in F. apply F. Qed.
  Definition shown (s : list Z) (c : Z) : Prop := ascii_print c \/ In c s /\ plain c = true /\ ~ special c.
  Lemma numeral_print b z c : 2 <= b <= 16 -> 0 <= z -> In c (numeral b z) -> ascii_print c.
  Proof. intros B H I. apply numeral_chars in I; trivial. unfold ascii_print. lia. Qed.
  Lemma escape_shown c d : 0 <= c -> In d (escape plain c) -> ascii_print d \/ d = c /\ plain c = true /\ ~ special c.
  Proof.
    intros H I. unfold ascii_print. destruct (escape_cases c) as [(_ & e & E & K)|[(N & P & E)|(_ & _ & E)]]; rewrite E in I.
    - left. destruct I as [<-|[<-|[]]]; [lia|]. cbn in K. intuition (try congruence); match goal with H : (_, _) = _ |- _ => injection H as <- <- end; lia.
    - destruct I as [<-|[]]. now right.
    - left. rewrite !in_app_iff in I. destruct I as [I|[I|I]].
      + cbn in I. lia.
      + now apply numeral_print in I.
      + cbn in I. lia.
  Qed.
  Lemma str_shown s c : Forall (fun c => 0 <= c) s -> In c (debug_str plain s) -> shown s c.
  Proof.
    intros F I. unfold debug_str in I. rewrite !in_app_iff in I. unfold shown. destruct I as [I|[I|I]].
    - left. cbn in I. unfold ascii_print. lia.
    - apply in_flat_map in I as (d & D & I). rewrite Forall_forall in F. apply escape_shown in I; [|now apply F].
      destruct I as [I|(-> & P & N)]; auto.
    - left. cbn in I. unfold ascii_print. lia.
  Qed.
  Definition text_in (e : xdr_error) : list Z := match e with XCustom s => s | _ => [] end.
  Lemma display_shown e c : sane e -> In c (display_xdr plain e) -> shown (text_in e) c.
  Proof.
    assert (K : forall s, forallb (fun c => (32 <=? c) && (c <=? 126)) (codes s) = true -> forall L, In c (codes s) -> shown L c).
    { intros s B L I. left. rewrite forallb_forall in B. apply B in I. unfold ascii_print. lia. }
    assert (M : forall z L, 0 <= z -> In c (numeral 10 z) -> shown L c) by (intros z L H I; left; apply numeral_print in I; trivial; lia).
    intros S I. unfold display_xdr in I. apply in_app_iff in I as [I|I]; [revert I; now apply K|].
    destruct e as [s| |k l|k| | |k]; cbn [debug_xdr text_in] in *; cbn in S.
    - rewrite !in_app_iff in I. destruct I as [I|[I|I]]; [revert I; now apply K|now apply str_shown|revert I; now apply K].
    - revert I; now apply K.
    - destruct S as [S1 S2]. destruct l as [j|]; rewrite !in_app_iff in I;
        repeat match type of I with _ \/ _ => destruct I as [I|I] end; try (revert I; now apply K); try (eapply M; [|exact I]; assumption).
    - rewrite !in_app_iff in I. destruct I as [I|[I|I]]; [revert I; now apply K|exact (M _ _ S I)|revert I; now apply K].
    - revert I; now apply K.
    - revert I; now apply K.
    - rewrite !in_app_iff in I. destruct I as [I|[I|I]]; [revert I; now apply K|exact (M _ _ S I)|revert I; now apply K].
  Qed.
End Plain.
