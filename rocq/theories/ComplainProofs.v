(** C122: what rpcgen prints on the standard error. *)
From Verif Require Import Base SpecUtf8 Utf8 Utf8Proofs RustTypes Nom NomFacts Ast ParserModel SpecGrammar SpecParse ParseSound ParserLemmas
  CaseModel SpecCase RustAst GenModel SpecGen GenFacts GenTotal GenPanic GenLemmas RustText
  SpecTranslate TranslateUnion SpecToolPanic ToolPanicUnion SpecToolError ToolErrorProofs MainModel SpecMain MainProofs SpecStatus StatusProofs
  DisplayModel SpecDisplay DisplayProofs.
Set Implicit Arguments.
Unset Strict Implicit.
Local Open Scope list_scope.

Lemma number_no_trailing ds k v e : number_error ds k v e -> e <> GTrailingData.
Proof. induction 1; congruence. Qed.
Lemma type_no_trailing cfg ds t e : type_error cfg ds t e -> e <> GTrailingData.
Proof. induction 1; congruence. Qed.
Lemma decl_no_trailing cfg ds d e : decl_error cfg ds d e -> e <> GTrailingData.
Proof. intros [(t & _ & H)|(_ & _ & ->)]; [exact (type_no_trailing H)|discriminate]. Qed.
Lemma default_no_trailing cfg ds d e : default_error cfg ds d e -> e <> GTrailingData.
Proof. intros (x & _ & H). exact (decl_no_trailing H). Qed.
Lemma arm_no_trailing cfg ds x l e : arm_error cfg ds x l e -> e <> GTrailingData.
Proof. intros (d & _ & H). exact (decl_no_trailing H). Qed.
Lemma switch_no_trailing cfg ds t l o e : switch_error cfg ds t l o e -> e <> GTrailingData.
Proof.
  assert (K : forall t, (exists a p b, arms_of l = (a ++ p :: b)%list /\
           Forall (fun p => exists z, number_is ds KU32 (snd p) z /\ 0 <= z < 2 ^ 32) a /\ number_error ds KU32 (snd p) e) \/
        (exists m, numbered ds l m /\
          ((exists q, reached cfg ds t m q /\ label_error cfg ds t q e) \/
           Forall (label_fine cfg ds t) m /\ default_error cfg ds o e)) -> e <> GTrailingData).
  { intros s [(a & p & b & _ & _ & H)|(m & _ & [(q & _ & _ & _ & H)|[_ H]])];
      [exact (number_no_trailing H)|exact (decl_no_trailing H)|exact (default_no_trailing H)]. }
  destruct t; cbn; try (intros ->; discriminate); try apply K.
  intros [H|[[_ H]|(_ & _ & H)]]; [exact (arm_no_trailing H)|exact (arm_no_trailing H)|exact (default_no_trailing H)].
Qed.
Lemma no_trailing cfg ds e : fails_with cfg ds e -> e <> GTrailingData.
Proof.
  intros [(a & p & b & _ & _ & _ & ->)|(_ & a & [x td] & b & _ & _ & H)]; [discriminate|]. destruct td as [d|y l|y l|y u]; cbn in H.
  - destruct H as [_ [H|(_ & _ & ->)]]; [exact (decl_no_trailing H)|discriminate].
  - destruct H as (a' & m & b' & _ & _ & H). exact (number_no_trailing H).
  - destruct H as (a' & d & b' & _ & _ & _ & H). exact (decl_no_trailing H).
  - destruct H as [_ H]. destruct u as [c l o]. destruct H as [(t & z & _ & H)|[_ ->]]; [exact (switch_no_trailing H)|discriminate].
Qed.

Definition broken_text (contents : option (list byte)) : Prop :=
  exists bs, contents = Some bs /\ valid_utf8 bs /\ forall ds, ~ denotes_text ds (text_of bs).

Lemma fails_run fl checks bs e : valid_utf8 bs ->
  (fails fl checks (Some bs) (FGen e) <-> greturns (fun n => rpcgen n fl checks (text_of bs)) (GErr e)).
Proof.
  intros V. apply utf8_ok_spec in V. split.
  - intros [N H]. split; [discriminate|]. exists N. intros n L. specialize (H n L). cbn in H. rewrite V in H.
    destruct (rpcgen n fl checks (text_of bs)); try discriminate. now injection H as ->.
  - intros [_ [N H]]. exists N. intros n L. cbn. now rewrite V, H by exact L.
Qed.
Lemma fails_gen fl checks c e : fails fl checks c (FGen e) <->
  (exists ds, protocol_file c ds /\ fails_with (main_config fl checks) ds e) \/ e = GTrailingData /\ broken_text c.
Proof.
  split.
  - intros H. destruct c as [bs|]; [|destruct H as [N H]; specialize (H N (le_n N)); discriminate].
    destruct (utf8_ok bs) eqn:U; [|destruct H as [N H]; specialize (H N (le_n N)); cbn in H; rewrite U in H; discriminate].
    apply utf8_ok_spec in U. apply (fails_run fl checks e U) in H. destruct (c33 (text_of bs)) as [[ds P]|P].
    + left. exists ds. split; [|now apply (tool_errors_exact fl checks e P)]. exists bs. split; [easy|]. split; [easy|].
      destruct (greturns_run P) as (n & R & _). exact (parse_sound R).
    + right. split.
      * destruct H as [_ [N H]], P as [_ [M P]]. specialize (H (N + M)%nat ltac:(lia)). unfold rpcgen in H. rewrite P in H by lia.
        cbn in H. now injection H as <-.
      * exists bs. split; [easy|]. split; [easy|]. intros ds D. pose proof (c33_unique P (c31 D)). discriminate.
  - intros [(ds & (bs & -> & V & D) & F)|(-> & bs & -> & V & D)]; apply (fails_run fl checks _ V).
    + apply (tool_errors_exact fl checks e (c31 D)). exact F.
    + destruct (c33 (text_of bs)) as [[ds P]|P].
      * exfalso. destruct (greturns_run P) as (n & R & _). exact (D ds (parse_sound R)).
      * destruct P as [_ [N P]]. split; [discriminate|]. exists N. intros n L. unfold rpcgen. now rewrite P by exact L.
Qed.

Lemma codes_inj x y : codes x = codes y -> x = y.
Proof.
  unfold codes. intros E. rewrite <- (string_of_list_ascii_of_string x), <- (string_of_list_ascii_of_string y). f_equal.
  revert E. generalize (chars x) as a, (chars y) as b. induction a as [|c a IH]; intros [|d b] E; cbn in E; try discriminate; trivial.
  injection E as E1 E2. f_equal; [|now apply IH]. apply N2Z.inj in E1. rewrite <- (ascii_N_embedding c), <- (ascii_N_embedding d). now rewrite E1.
Qed.
Lemma codes_pos x : Forall (fun c => 0 <= c) (codes x).
Proof. unfold codes. apply Forall_forall. intros c I. apply in_map_iff in I as (a & <- & _). lia. Qed.
Lemma name_code c : name_char c = true -> ascii_print (Z.of_N (N_of_ascii c)) /\ Z.of_N (N_of_ascii c) <> 92 /\ Z.of_N (N_of_ascii c) <> 34.
Proof.
  unfold ascii_print. intros H. destruct c as [[] [] [] [] [] [] [] []]; vm_compute in H; try discriminate H; cbn; lia.
Qed.
Lemma plain_name plain x : prints_ascii plain -> good_name x -> debug_str plain (codes x) = codes """" ++ codes x ++ codes """".
Proof.
  intros P G. unfold debug_str. f_equal. f_equal. apply good_name_chars in G. unfold codes.
  induction G as [|c l C _ IH]; [reflexivity|]. cbn [map flat_map]. rewrite IH. apply name_code in C as (A & N1 & N2).
  pose proof (P _ A) as K. unfold ascii_print in A. set (z := Z.of_N (N_of_ascii c)) in *. unfold escape.
  replace (z =? 0) with false by lia. replace (z =? 9) with false by lia. replace (z =? 13) with false by lia.
  replace (z =? 10) with false by lia. replace (z =? 92) with false by lia. replace (z =? 34) with false by lia. now rewrite K.
Qed.

Section With.
  Variables (plain : Z -> bool) (io pm : list Z).
  Lemma message_gen f e : message plain io pm f = message plain io pm (FGen e) -> f = FGen e.
  Proof.
    intros E. unfold message in E. apply app_inv_head in E. apply app_inv_tail in E. destruct f as [| |g]; try (cbn in E; discriminate E).
    apply app_inv_head in E. apply app_inv_tail in E. f_equal.
    destruct g as [y| | |], e as [x| | |]; try reflexivity; cbn [debug_gen] in E; try (cbn in E; discriminate E).
    apply app_inv_head in E. apply debug_str_inj in E as [E _]; try apply codes_pos. f_equal. now apply codes_inj.
  Qed.
  Lemma complains_gen fl checks c e : complains plain io pm fl checks c (message plain io pm (FGen e)) <-> fails fl checks c (FGen e).
  Proof.
    split; [|intros H; now exists (FGen e)]. intros (f & H & E). apply message_gen in E. now subst.
  Qed.
  Lemma complains_named fl checks c x : prints_ascii plain -> good_name x ->
    (complains plain io pm fl checks c (codes "Error: RpcGen(NotFountIdentifier(""" ++ codes x ++ codes """))" ++ [10]) <->
     exists ds, protocol_file c ds /\ fails_with (main_config fl checks) ds (GNotFoundIdentifier x)).
  Proof.
    intros P G. assert (E : codes "Error: RpcGen(NotFountIdentifier(""" ++ codes x ++ codes """))" ++ [10] = message plain io pm (FGen (GNotFoundIdentifier x))).
    { unfold message, debug_gen. rewrite plain_name by trivial. rewrite <- !app_assoc. reflexivity. }
    rewrite E, complains_gen, fails_gen. split; [|now left]. intros [H|[H _]]; [exact H|discriminate].
  Qed.
  Lemma complains_unsupported fl checks c :
    complains plain io pm fl checks c (codes "Error: RpcGen(NotSupported)" ++ [10]) <->
    exists ds, protocol_file c ds /\ fails_with (main_config fl checks) ds GNotSupported.
  Proof.
    change (codes "Error: RpcGen(NotSupported)" ++ [10]) with (message plain io pm (FGen GNotSupported)).
    rewrite complains_gen, fails_gen. split; [|now left]. intros [H|[H _]]; [exact H|discriminate].
  Qed.
  Lemma complains_syntax fl checks c :
    complains plain io pm fl checks c (codes "Error: RpcGen(TrailingData)" ++ [10]) <->
    exists bs, c = Some bs /\ valid_utf8 bs /\ forall ds, ~ denotes_text ds (text_of bs).
  Proof.
    change (codes "Error: RpcGen(TrailingData)" ++ [10]) with (message plain io pm (FGen GTrailingData)).
    rewrite complains_gen, fails_gen. split; [|now right]. intros [(ds & _ & H)|[_ H]]; [now apply no_trailing in H|exact H].
  Qed.
  Lemma complains_status fl checks c : (exists t, complains plain io pm fl checks c t) <-> exits fl checks c [] 1.
  Proof.
    split.
    - intros (t & f & [N H] & _). exists N. intros n L. specialize (H n L). unfold failure_of in H. unfold main.
      destruct c as [bs|]; [|reflexivity]. destruct (utf8_ok bs); [|reflexivity]. now destruct (rpcgen n fl checks (text_of bs)).
    - intros H. assert (F : exists f, fails fl checks c f).
      { apply status_1 in H as [N|(ds & e & P & F)].
        - destruct c as [bs|]; [|now exists FRead, O]. destruct (utf8_ok bs) eqn:U.
          + exists (FGen GTrailingData). apply fails_gen. right. split; [easy|]. apply utf8_ok_spec in U. exists bs. split; [easy|]. split; [easy|].
            intros ds D. apply (N ds). now exists bs.
          + exists FUtf8, O. intros n _. cbn. now rewrite U.
        - exists (FGen e). apply fails_gen. left. eauto. }
      destruct F as [f F]. exists (message plain io pm f), f. now split.
  Qed.
End With.

Lemma shown_line plain s c : shown plain s c -> c <> 10.
Proof. unfold shown, ascii_print, special. intros [H|(_ & _ & N)] ->; [lia|]. apply N. cbn. tauto. Qed.
Lemma message_line plain io pm e : Forall (fun c => 0 <= c) pm ->
  exists t, message plain io pm (FGen e) = t ++ [10] /\ ~ In 10 t.
Proof.
  intros P. exists (codes "Error: " ++ codes "RpcGen(" ++ debug_gen plain pm e ++ codes ")"). split.
  - unfold message. rewrite <- !app_assoc. reflexivity.
  - assert (K : forall s, existsb (Z.eqb 10) (codes s) = false -> ~ In 10 (codes s)).
    { intros s H I. enough (existsb (Z.eqb 10) (codes s) = true) by congruence. apply existsb_exists. exists 10. now split. }
    assert (D : forall s, Forall (fun c => 0 <= c) s -> ~ In 10 (debug_str plain s)).
    { intros s F I. apply (str_shown F) in I. now apply shown_line in I. }
    rewrite !in_app_iff. intros [I|[I|[I|I]]]; try (revert I; now apply K).
    destruct e as [x| | |]; cbn [debug_gen] in I; try (revert I; now apply K); rewrite !in_app_iff in I;
      (destruct I as [I|[I|I]]; [revert I; now apply K| |revert I; now apply K]); revert I; apply D; trivial. apply codes_pos.
Qed.
Lemma display_chars plain e c : sane e -> In c (display_xdr plain e) ->
  ascii_print c \/ exists s, e = XCustom s /\ In c s /\ plain c = true /\ ~ In c [0; 9; 10; 13].
Proof.
  intros S I. apply (display_shown S) in I as [I|(I & P & N)]; [now left|]. right. destruct e as [s| | | | | |]; try contradiction.
  exists s. repeat (split; [easy|]). intros K. apply N. unfold special. cbn in *. tauto.
Qed.
Lemma display_numbers plain k : 0 <= k -> exists d, decimal d k /\
  display_xdr plain (XNotEnoughData k) = codes "error: NotEnoughData(" ++ d ++ codes ")" /\
  display_xdr plain (XTrailingData k) = codes "error: TrailingData(" ++ d ++ codes ")".
Proof. intros H. exists (numeral 10 k). split; [now apply numeral_decimal|]. now split. Qed.
