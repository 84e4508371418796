(** C119: the exit status of rpcgen. *)
From Verif Require Import Base SpecUtf8 Utf8 Utf8Proofs RustTypes Nom NomFacts Ast ParserModel SpecGrammar SpecParse ParseSound ParserLemmas
  CaseModel SpecCase RustAst GenModel SpecGen GenFacts GenTotal GenPanic GenLemmas RustText
  SpecTranslate TranslateUnion SpecToolPanic ToolPanicUnion SpecToolError ToolErrorProofs MainModel SpecMain MainProofs SpecStatus.
Set Implicit Arguments.
Unset Strict Implicit.
Local Open Scope list_scope.

Lemma file_cases c : (exists ds, protocol_file c ds) \/
  (forall ds, ~ protocol_file c ds) /\ forall fl checks, exits fl checks c [] 1.
Proof.
  destruct c as [bs|]; [|right; split; [intros ds (bs & E & _); discriminate|apply no_contents]].
  destruct (utf8_ok bs) eqn:U.
  2:{ assert (V : ~ valid_utf8 bs) by (rewrite <- utf8_ok_spec; congruence). right. split; [|intros; now apply not_utf8].
      intros ds (b & [= <-] & H & _). now apply V. }
  apply utf8_ok_spec in U. destruct (c33 (text_of bs)) as [[ds P]|P].
  - left. exists ds, bs. split; [easy|]. split; [easy|]. destruct (greturns_run P) as (n & R & _). exact (parse_sound R).
  - assert (N : forall ds, ~ denotes_text ds (text_of bs)) by (intros ds D; pose proof (c33_unique P (c31 D)); discriminate).
    right. split; [|intros; now apply not_protocol]. intros ds (b & [= <-] & _ & D). exact (N ds D).
Qed.
Lemma file_one c ds ds' : protocol_file c ds -> protocol_file c ds' -> ds = ds'.
Proof.
  intros (bs & -> & _ & D) (b & [= <-] & _ & D'). pose proof (c33_unique (c31 D) (c31 D')) as E. now injection E as ->.
Qed.
Lemma file_good c ds : protocol_file c ds -> good_spec ds.
Proof. intros (bs & -> & _ & D). exact (c34 (c31 D)). Qed.

Lemma status_0 fl checks c : (exists out, exits fl checks c out 0) <->
  exists ds, protocol_file c ds /\ translatable (main_config fl checks) ds.
Proof.
  split.
  - intros [out H]. apply success in H as (bs & ds & f & -> & V & D & G & _). assert (P : protocol_file (Some bs) ds) by now exists bs.
    exists ds. split; [exact P|]. apply (translated (main_config fl checks) (file_good P)). eauto.
  - intros (ds & P & T). apply (translated (main_config fl checks) (file_good P)) in T as [f G]. destruct P as (bs & -> & V & D).
    exists (bytes_of (printed f)). apply success. exists bs, ds, f. repeat (split; [easy|]). apply text_bytes.
Qed.
Lemma status_1 fl checks c : exits fl checks c [] 1 <->
  (forall ds, ~ protocol_file c ds) \/ exists ds e, protocol_file c ds /\ fails_with (main_config fl checks) ds e.
Proof.
  destruct (file_cases c) as [[ds P]|[N E]]; [|split; [now left|intros _; apply E]].
  pose proof (file_good P) as G. pose proof P as (bs & -> & V & D). destruct (error_status fl checks V D) as [E _]. rewrite E. split.
  - intros [e R]. right. exists ds, e. split; [easy|]. now apply (errors_exact (main_config fl checks) e G).
  - intros [N|(ds' & e & P' & F)]; [now destruct (N ds)|]. rewrite <- (file_one P P') in F. exists e.
    now apply (errors_exact (main_config fl checks) e G).
Qed.
Lemma status_101 fl checks c : exits fl checks c [] 101 <->
  exists ds, protocol_file c ds /\ panics_on (main_config fl checks) ds.
Proof.
  destruct (file_cases c) as [[ds P]|[N E]].
  - pose proof (file_good P) as G. pose proof P as (bs & -> & V & D). destruct (error_status fl checks V D) as [_ E]. rewrite E.
    rewrite (panics_exact (main_config fl checks) G). split; [eauto|]. intros (ds' & P' & F). now rewrite (file_one P P').
  - split; [intros H; now destruct (exits_one H (E fl checks))|]. intros (ds & P & _). now destruct (N ds).
Qed.
Lemma status_none fl checks c : (forall out st, ~ exits fl checks c out st) <->
  exists ds, protocol_file c ds /\ ~ translatable (main_config fl checks) ds /\ ~ panics_on (main_config fl checks) ds /\
    forall e, ~ fails_with (main_config fl checks) ds e.
Proof.
  split.
  - intros H. destruct (file_cases c) as [[ds P]|[N E]]; [|now destruct (H [] 1)].
    exists ds. split; [exact P|]. split; [|split].
    + intros T. destruct (proj2 (status_0 fl checks c)) as [out X]; [eauto|]. exact (H _ _ X).
    + intros T. apply (H [] 101). apply status_101. eauto.
    + intros e T. apply (H [] 1). apply status_1. right. eauto.
  - intros (ds & P & h1 & h2 & h3) out st H. destruct (statuses H) as [[-> _]|[[->| ->] ->]].
    + destruct (proj1 (status_0 fl checks c)) as (ds' & P' & T); [eauto|]. now rewrite <- (file_one P P') in T.
    + apply status_1 in H as [N|(ds' & e & P' & T)]; [now destruct (N ds)|]. rewrite <- (file_one P P') in T. now destruct (h3 e).
    + apply status_101 in H as (ds' & P' & T). now rewrite <- (file_one P P') in T.
Qed.
