(** Proofs about the name conversions. *)
From Verif Require Import Base Nom NomFacts CaseModel SpecCase.
Set Implicit Arguments.
Unset Strict Implicit.

(** ** Characters: checked over all 256 of them *)
Ltac all_chars c := destruct c as [[] [] [] [] [] [] [] []]; vm_compute.

Lemma lower_small c : lower c = small c.
Proof. all_chars c; reflexivity. Qed.
Lemma upper_big c : upper c = big c.
Proof. all_chars c; reflexivity. Qed.
Lemma in_existsb c l : In c l <-> existsb (Ascii.eqb c) l = true.
Proof.
  rewrite existsb_exists. split.
  - intros H. exists c. split; [easy|apply Ascii.eqb_refl].
  - intros (d & H & e). apply Ascii.eqb_eq in e. now subst.
Qed.
Lemma is_upper_in c : is_upper c = existsb (Ascii.eqb c) capitals.
Proof. all_chars c; reflexivity. Qed.
Lemma is_lower_in c : is_lower c = existsb (Ascii.eqb c) smalls.
Proof. all_chars c; reflexivity. Qed.
Lemma is_digit_in c : is_digit c = existsb (Ascii.eqb c) numerals.
Proof. all_chars c; reflexivity. Qed.
Lemma capital_spec c : is_upper c = true <-> In c capitals.
Proof. now rewrite in_existsb, is_upper_in. Qed.
Lemma small_spec c : is_lower c = true <-> In c smalls.
Proof. now rewrite in_existsb, is_lower_in. Qed.
Lemma numeral_spec c : is_digit c = true <-> In c numerals.
Proof. now rewrite in_existsb, is_digit_in. Qed.

Lemma lower_lower c : lower (lower c) = lower c.
Proof. all_chars c; reflexivity. Qed.
Lemma lower_upper c : lower (upper c) = lower c.
Proof. all_chars c; reflexivity. Qed.
Lemma upper_upper c : upper (upper c) = upper c.
Proof. all_chars c; reflexivity. Qed.
Lemma upper_lower c : upper (lower c) = upper c.
Proof. all_chars c; reflexivity. Qed.
Lemma upper_keep c : is_lower c = false -> upper c = c.
Proof. all_chars c; (reflexivity || discriminate). Qed.
Lemma lower_keep c : is_upper c = false -> lower c = c.
Proof. all_chars c; (reflexivity || discriminate). Qed.
Lemma lower_no_upper c : is_upper (lower c) = false.
Proof. all_chars c; reflexivity. Qed.
Lemma upper_no_lower c : is_lower (upper c) = false.
Proof. all_chars c; reflexivity. Qed.
Lemma lower_us c : Ascii.eqb (lower c) "_" = Ascii.eqb c "_".
Proof. all_chars c; reflexivity. Qed.
Lemma upper_us c : Ascii.eqb (upper c) "_" = Ascii.eqb c "_".
Proof. all_chars c; reflexivity. Qed.
Lemma eqb_sym a b : Ascii.eqb a b = Ascii.eqb b a.
Proof. apply Bool.eq_iff_eq_true. rewrite !Ascii.eqb_eq. easy. Qed.
Lemma upper_of_upper c : is_upper c = true -> upper c = c.
Proof. all_chars c; (reflexivity || discriminate). Qed.
Lemma upper_of_digit c : is_digit c = true -> upper c = c.
Proof. all_chars c; (reflexivity || discriminate). Qed.
Lemma digit_not_upper c : is_digit c = true -> is_upper c = false.
Proof. all_chars c; (reflexivity || discriminate). Qed.

(** ** upper_camel_case *)
Local Notation has_us := (existsb (Ascii.eqb "_")).
Local Notation pieces := (split_on (Ascii.eqb "_")).

Lemma map_lower_small t : map lower t = map small t.
Proof. apply map_ext, lower_small. Qed.
Lemma capitalize_titled t : capitalize t = titled t.
Proof. destruct t; cbn; [easy|]. now rewrite upper_big, map_lower_small. Qed.

Lemma pieces_ne t : pieces t <> [].
Proof.
  destruct t as [|c t]; cbn [split_on]; [easy|].
  destruct (Ascii.eqb "_" c); [easy|]. now destruct (pieces t).
Qed.
Lemma pieces_no_us t : Forall (fun p => has_us p = false) (pieces t).
Proof.
  induction t as [|c t IH]; cbn [split_on]; [now constructor|].
  destruct (Ascii.eqb "_" c) eqn:e; [now constructor|].
  destruct (pieces t); [constructor; [cbn [existsb]; now rewrite e|constructor]|].
  inversion IH. constructor; [cbn [existsb]; now rewrite e|easy].
Qed.
Lemma pieces_join t : join (pieces t) = t.
Proof.
  induction t as [|c t IH]; cbn [split_on]; [easy|].
  pose proof (@pieces_ne t) as ne.
  destruct (Ascii.eqb "_" c) eqn:e.
  - apply Ascii.eqb_eq in e. subst. cbn [join]. destruct (pieces t); [easy|]. now rewrite IH.
  - destruct (pieces t) as [|p ps]; [easy|]. cbn in IH |- *. destruct ps; cbn in *; now rewrite <- IH.
Qed.
Lemma pieces_of_join ps : ps <> [] -> Forall (fun p => has_us p = false) ps -> pieces (join ps) = ps.
Proof.
  assert (H1 : forall p t, has_us p = false -> pieces (p ++ "_"%char :: t) = p :: pieces t).
  { induction p as [|c p IH]; intros t h; [easy|].
    cbn [existsb] in h. apply orb_false_iff in h as [h1 h2].
    cbn [app split_on]. now rewrite h1, IH. }
  assert (H2 : forall p, has_us p = false -> pieces p = [p]).
  { induction p as [|c p IH]; intros h; [easy|].
    cbn [existsb] in h. apply orb_false_iff in h as [h1 h2].
    cbn [split_on]. now rewrite h1, IH. }
  induction ps as [|p ps IH]; intros ne F; [easy|]. inversion F; subst.
  destruct ps as [|q ps]; [now apply H2|].
  change (join (p :: q :: ps)) with (p ++ "_"%char :: join (q :: ps))%list.
  rewrite H1 by easy. f_equal. apply IH; easy.
Qed.
Lemma join_us ps : (2 <= length ps)%nat -> has_us (join ps) = true.
Proof.
  destruct ps as [|p [|q ps]]; cbn [length]; try lia. intros _.
  change (join (p :: q :: ps)) with (p ++ "_"%char :: join (q :: ps))%list.
  rewrite existsb_app. cbn [existsb]. rewrite Ascii.eqb_refl. now rewrite orb_true_r.
Qed.

Lemma in_us t : has_us t = true <-> In underscore t.
Proof. unfold underscore. symmetry. rewrite in_existsb. easy. Qed.

Lemma not_in_us t : ~ In underscore t <-> has_us t = false.
Proof. rewrite <- in_us. destruct (has_us t); split; congruence. Qed.

Lemma camel_plain t : ~ In underscore t -> upper_camel_case t = first_big t.
Proof.
  intros H. apply not_in_us in H. unfold upper_camel_case. rewrite H.
  destruct t; [easy|]. cbn. now rewrite upper_big.
Qed.
Lemma camel_join ps : (2 <= length ps)%nat -> Forall (fun p => ~ In underscore p) ps ->
  upper_camel_case (join ps) = concat (map titled ps).
Proof.
  intros L F. unfold upper_camel_case. rewrite join_us by easy.
  rewrite pieces_of_join.
  - f_equal. apply map_ext, capitalize_titled.
  - now destruct ps.
  - eapply Forall_impl; [|exact F]. intros p. apply not_in_us.
Qed.

Lemma camel_no_us t : has_us (upper_camel_case t) = false.
Proof.
  unfold upper_camel_case. destruct (has_us t) eqn:e.
  - pose proof (pieces_no_us t) as F. induction F as [|p ps H F IH]; [easy|].
    cbn [map concat]. rewrite existsb_app, IH, orb_false_r.
    destruct p as [|c p]; [easy|]. cbn [capitalize existsb] in *.
    apply orb_false_iff in H as [h1 h2]. rewrite eqb_sym, upper_us, eqb_sym, h1. cbn.
    induction p as [|d p IHp]; [easy|]. cbn [map existsb] in *. apply orb_false_iff in h2 as [h2 h3].
    rewrite eqb_sym, lower_us, eqb_sym, h2. now apply IHp.
  - destruct t as [|c t]; [easy|]. cbn [existsb] in *. apply orb_false_iff in e as [h1 h2].
    rewrite eqb_sym, upper_us, eqb_sym, h1. easy.
Qed.

Definition head_ok (t : text) : Prop := match t with [] => True | c :: _ => is_lower c = false end.

Lemma camel_head t : head_ok (upper_camel_case t).
Proof.
  unfold upper_camel_case. destruct (has_us t).
  - induction (pieces t) as [|p ps IH]; [easy|]. cbn [map concat].
    destruct p as [|c p]; [easy|]. cbn. apply upper_no_lower.
  - destruct t; [easy|]. apply upper_no_lower.
Qed.

Lemma camel_fix t : has_us t = false -> head_ok t -> upper_camel_case t = t.
Proof.
  intros H1 H2. unfold upper_camel_case. rewrite H1. destruct t; [easy|]. cbn in *.
  now rewrite upper_keep.
Qed.
Lemma camel_idempotent t : upper_camel_case (upper_camel_case t) = upper_camel_case t.
Proof. apply camel_fix; [apply camel_no_us|apply camel_head]. Qed.

Lemma letters_lower t : letters t = map lower (filter (fun c => negb (Ascii.eqb c "_")) t).
Proof. unfold letters. symmetry. apply map_lower_small. Qed.
Lemma letters_app a b : letters (a ++ b) = (letters a ++ letters b)%list.
Proof. unfold letters. now rewrite filter_app, map_app. Qed.
Lemma letters_cons c t : letters (c :: t) = (if Ascii.eqb c "_" then letters t else lower c :: letters t)%list.
Proof. unfold letters. cbn. rewrite lower_small. unfold underscore. now destruct (Ascii.eqb c "_"). Qed.
Lemma letters_map f t : (forall c, lower (f c) = lower c) -> (forall c, Ascii.eqb (f c) "_" = Ascii.eqb c "_") ->
  letters (map f t) = letters t.
Proof.
  intros H1 H2. induction t as [|c t IH]; [easy|]. cbn [map]. now rewrite !letters_cons, H1, H2, IH.
Qed.
Lemma letters_capitalize t : letters (capitalize t) = letters t.
Proof.
  destruct t as [|c t]; [easy|]. cbn [capitalize].
  rewrite !letters_cons, upper_us, lower_upper, letters_map; [easy|apply lower_lower|apply lower_us].
Qed.
Lemma letters_join ps : letters (join ps) = concat (map letters ps).
Proof.
  induction ps as [|p ps IH]; [easy|]. destruct ps as [|q ps]; [cbn; now rewrite app_nil_r|].
  change (join (p :: q :: ps)) with (p ++ "_"%char :: join (q :: ps))%list.
  rewrite letters_app, letters_cons, Ascii.eqb_refl, IH. easy.
Qed.
Lemma camel_letters t : letters (upper_camel_case t) = letters t.
Proof.
  unfold upper_camel_case. destruct (has_us t).
  - rewrite <- (pieces_join t) at 2. rewrite letters_join.
    induction (pieces t) as [|p ps IH]; [easy|]. cbn [map concat].
    now rewrite letters_app, letters_capitalize, IH.
  - destruct t as [|c t]; [easy|]. now rewrite !letters_cons, upper_us, lower_upper.
Qed.

(** ** snake_case *)
Local Notation stop := (fun c => is_lower c || is_digit c).
Local Notation shorten := (fun p : text => if (length p =? 1)%nat then p else capitalize p).

Fixpoint cap (start : bool) (t : text) : text :=
  match t with
  | [] => []
  | c :: t => (if start then c else lower c) :: cap (stop c) t
  end.

Lemma stop_lower c : stop c = false -> upper c = c.
Proof. intros H. apply orb_false_iff in H as [H _]. now apply upper_keep. Qed.

Lemma cap_spec t :
  concat (map shorten (split_inclusive stop t)) = cap true t /\
  match split_inclusive stop t with
  | [] => []
  | p :: ps => (map lower p ++ concat (map shorten ps))%list
  end = cap false t.
Proof.
  induction t as [|c t [IH1 IH2]]; [easy|].
  cbn [split_inclusive cap]. cbv beta.
  destruct (is_lower c || is_digit c) eqn:e.
  - cbn. now rewrite IH1.
  - destruct (split_inclusive stop t) as [|p ps].
    + cbn in *. now rewrite <- IH2.
    + split.
      * rewrite <- IH2. cbn [map concat]. rewrite app_comm_cons. f_equal.
        destruct p; cbn; [easy|]. now rewrite stop_lower.
      * rewrite <- IH2. easy.
Qed.

Fixpoint ins (start : bool) (t : text) : text :=
  match t with
  | [] => []
  | c :: t => ((if is_upper c && negb start then ["_"%char] else []) ++ lower c :: ins false t)%list
  end.

Definition emit (index : nat) (seg : text) : text :=
  match index with O => map lower seg | _ => with_underscore seg end.

Lemma slice_mid (pre seg rest : text) :
  slice (length pre) (length pre + length seg) (pre ++ seg ++ rest) = seg.
Proof.
  unfold slice. rewrite skipn_app, skipn_all, Nat.sub_diag. cbn [skipn app].
  replace (length pre + length seg - length pre)%nat with (length seg) by lia.
  rewrite firstn_app, Nat.sub_diag, firstn_all. cbn. apply app_nil_r.
Qed.
Lemma emit_snoc i seg c : emit i (seg ++ [c]) = (emit i seg ++ [lower c])%list.
Proof. destruct i; unfold emit, with_underscore; now rewrite map_app. Qed.

Lemma snake_loop_spec rest : forall pre seg v, (pre <> [] -> seg <> []) ->
  snake_loop (pre ++ seg ++ rest) (length pre)
    (match_indices is_upper (length pre + length seg) rest) v =
  (v ++ emit (length pre) seg ++ ins ((length pre + length seg) =? 0)%nat rest)%list.
Proof.
  induction rest as [|c rest IH]; intros pre seg v ne.
  - cbn. rewrite !app_nil_r.
    destruct pre as [|d pre]; cbn [length emit]; [cbn; easy|].
    cbn [app skipn].
    rewrite skipn_app, skipn_all, Nat.sub_diag. easy.
  - cbn [match_indices ins]. destruct (is_upper c) eqn:e.
    + cbn [snake_loop]. rewrite slice_mid.
      specialize (IH (pre ++ seg)%list [c]).
      rewrite app_length in IH. cbn [length] in IH.
      replace (length pre + length seg + 1)%nat with (S (length pre + length seg)) in IH by lia.
      rewrite <- app_assoc in IH. cbn [app] in IH.
      rewrite IH by easy.
      destruct pre as [|p pre].
      * destruct seg as [|s seg]; [cbn; now rewrite !app_nil_r|].
        cbn. unfold with_underscore. cbn. now rewrite <- !app_assoc.
      * destruct seg as [|s seg]; [now specialize (ne ltac:(easy))|].
        cbn. unfold with_underscore. cbn. now rewrite <- !app_assoc.
    + specialize (IH pre (seg ++ [c])%list).
      rewrite app_length in IH. cbn [length] in IH.
      replace (length pre + (length seg + 1))%nat with (S (length pre + length seg)) in IH by lia.
      rewrite <- app_assoc in IH. cbn [app] in IH.
      rewrite IH by (intros _ h; now destruct seg).
      rewrite emit_snoc, <- app_assoc. easy.
Qed.

Lemma snake_ins t : snake_case t = ins true (cap true t).
Proof.
  unfold snake_case. destruct (cap_spec t) as [H _]. rewrite H.
  exact (@snake_loop_spec (cap true t) [] [] [] ltac:(easy)).
Qed.

Fixpoint snake_after (p : ascii) (t : text) : text :=
  match t with
  | [] => []
  | c :: t =>
      ((if (is_lower p || is_digit p) && is_upper c then ["_"%char] else []) ++ lower c :: snake_after c t)%list
  end.
Definition snake_simple (t : text) : text :=
  match t with [] => [] | c :: t => lower c :: snake_after c t end.

Lemma snake_eq t : snake_case t = snake_simple t.
Proof.
  rewrite snake_ins. destruct t as [|c t]; [easy|]. cbn [cap ins].
  rewrite andb_false_r. cbn [app snake_simple]. f_equal.
  revert c. induction t as [|d t IH]; intros c; [easy|].
  cbn [cap ins snake_after]. cbv beta. rewrite andb_true_r.
  destruct (is_lower c || is_digit c) eqn:e; cbn [andb].
  - rewrite <- IH. easy.
  - rewrite lower_no_upper, lower_lower, <- IH. easy.
Qed.

Lemma boundary_spec a b : boundary a b <-> (is_lower a || is_digit a) && is_upper b = true.
Proof.
  unfold boundary. now rewrite andb_true_iff, orb_true_iff, capital_spec, small_spec, numeral_spec.
Qed.

Lemma snaked_after_eq p t u : snaked_after p t u <-> u = snake_after p t.
Proof.
  split.
  - induction 1 as [| |]; subst; cbn [snake_after]; [easy| |].
    + apply boundary_spec in H. rewrite H. now rewrite lower_small.
    + rewrite boundary_spec in H. apply not_true_is_false in H. rewrite H. now rewrite lower_small.
  - intros ->. revert p. induction t as [|c t IH]; intros p; [constructor|].
    cbn [snake_after]. rewrite lower_small. destruct (_ && _) eqn:e.
    + apply sn_word; [now apply boundary_spec|apply IH].
    + apply sn_letter; [rewrite boundary_spec; congruence|apply IH].
Qed.
Lemma snaked_eq t u : snaked t u <-> u = snake_case t.
Proof.
  rewrite snake_eq. split.
  - inversion 1; subst; [easy|]. cbn. rewrite lower_small. f_equal. now apply snaked_after_eq.
  - intros ->. destruct t; [constructor|]. cbn. rewrite lower_small. constructor. now apply snaked_after_eq.
Qed.

Lemma snake_no_upper t : Forall (fun c => is_upper c = false) (snake_case t).
Proof.
  rewrite snake_eq. destruct t as [|c t]; [constructor|]. constructor; [apply lower_no_upper|].
  revert c. induction t as [|d t IH]; intros c; [constructor|]. cbn [snake_after].
  apply Forall_app. split; [destruct (_ && _); repeat constructor|].
  constructor; [apply lower_no_upper|apply IH].
Qed.
Lemma snake_id t : Forall (fun c => is_upper c = false) t -> snake_case t = t.
Proof.
  rewrite snake_eq. destruct t as [|c t]; [easy|]. intros F. inversion F as [|? ? h F']; subst.
  cbn [snake_simple]. rewrite lower_keep by easy. f_equal. clear F h. revert c.
  induction F' as [|d t h F IH]; intros c; [easy|]. cbn [snake_after].
  rewrite h, andb_false_r, lower_keep by easy. cbn. now rewrite IH.
Qed.
Lemma snake_idempotent t : snake_case (snake_case t) = snake_case t.
Proof. apply snake_id, snake_no_upper. Qed.
Lemma snake_letters t : letters (snake_case t) = letters t.
Proof.
  rewrite snake_eq. destruct t as [|c t]; [easy|]. cbn [snake_simple].
  assert (H : forall c, letters (snake_after c t) = letters t).
  { clear c. induction t as [|d t IH]; intros c; [easy|]. cbn [snake_after].
    rewrite letters_app.
    replace (letters (if (is_lower c || is_digit c) && is_upper d then ["_"%char] else [])) with (@nil ascii)
      by now destruct (_ && _).
    cbn [app]. now rewrite !letters_cons, lower_us, lower_lower, IH. }
  now rewrite !letters_cons, lower_us, lower_lower, H.
Qed.

(** ** Collisions *)
Fixpoint uncamel (start : bool) (t : text) : text :=
  match t with
  | [] => []
  | c :: t => ((if is_upper c && negb start then ["_"%char] else []) ++ upper c :: uncamel false t)%list
  end.

Lemma uncamel_small p t : Forall (fun d => In d capitals \/ In d numerals) p ->
  uncamel false (map lower p ++ t) = (p ++ uncamel false t)%list.
Proof.
  induction 1 as [|c p H F IH]; [easy|]. cbn [map app uncamel].
  rewrite lower_no_upper, IH. cbn. f_equal.
  rewrite upper_lower. destruct H as [H|H].
  - apply capital_spec in H. now apply upper_of_upper.
  - apply numeral_spec in H. now apply upper_of_digit.
Qed.
Lemma uncamel_parts ps : Forall screaming_part ps -> ps <> [] ->
  uncamel true (concat (map capitalize ps)) = join ps.
Proof.
  intros F. assert (G : forall b, ps <> [] -> uncamel b (concat (map capitalize ps)) =
    if b then join ps else ("_"%char :: join ps)%list); [|intros; now apply (G true)].
  induction F as [|p ps (c & t & -> & Hc & Ht) F IH]; intros b nn; [easy|clear nn].
  cbn [map concat capitalize app uncamel].
  apply capital_spec in Hc.
  rewrite (upper_of_upper Hc), Hc, (upper_of_upper Hc), uncamel_small by easy.
  assert (H : uncamel false (concat (map capitalize ps)) =
              match ps with [] => [] | _ => "_"%char :: join ps end)
    by (destruct ps; [easy|now apply IH]).
  rewrite H. destruct b; destruct ps; cbn [join app negb andb]; now rewrite ?app_nil_r.
Qed.
Lemma screaming_part_no_us p : screaming_part p -> ~ In underscore p.
Proof.
  intros (c & t & -> & Hc & Ht) [H|H].
  - subst c. revert Hc. vm_compute. intuition discriminate.
  - rewrite Forall_forall in Ht. destruct (Ht _ H) as [K|K]; revert K; vm_compute; intuition discriminate.
Qed.
(** a name of several parts gives its parts back *)
Lemma camel_screaming_inj s t : screaming s -> screaming t -> In underscore s -> In underscore t ->
  upper_camel_case s = upper_camel_case t -> s = t.
Proof.
  intros (ps & n1 & F1 & ->) (qs & n2 & F2 & ->) U1 U2 E.
  assert (L : forall ps, Forall screaming_part ps -> In underscore (join ps) -> (2 <= length ps)%nat).
  { clear. intros ps F H. destruct ps as [|p [|q ps]]; cbn; [easy| |lia].
    exfalso. inversion F; subst. now apply screaming_part_no_us in H. }
  rewrite !camel_join in E; try (now apply L);
    try (eapply Forall_impl; [apply screaming_part_no_us|easy]).
  rewrite <- (uncamel_parts F1 n1), <- (uncamel_parts F2 n2).
  f_equal. erewrite (map_ext _ _ capitalize_titled), (map_ext _ _ capitalize_titled). exact E.
Qed.
