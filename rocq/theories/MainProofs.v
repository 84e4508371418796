From Verif Require Import Base SpecUtf8 Utf8 Utf8Proofs RustTypes SpecTypes Nom NomFacts Ast ParserModel SpecGrammar SpecParse ParseSound ParserLemmas
  CaseModel SpecCase RustAst GenModel SpecGen GenFacts GenTotal GenPanic GenLemmas SpecXdl GenSem SpecWire EmitFlags EmitReject RustText SpecRust SpecSyntax TextGen TextFile TextLegible
  MainModel SpecMain.
Set Implicit Arguments.
Unset Strict Implicit.
Local Open Scope list_scope.

Lemma text_bytes t : text_of (bytes_of t) = t.
Proof. unfold text_of, bytes_of. rewrite map_map. rewrite <- (map_id t) at 2. apply map_ext. apply ascii_of_byte_of_ascii. Qed.

Lemma exits_one fl checks c out st out' st' : exits fl checks c out st -> exits fl checks c out' st' -> out = out' /\ st = st'.
Proof.
  intros [N H] [N' H']. specialize (H (Nat.max N N') ltac:(lia)). specialize (H' (Nat.max N N') ltac:(lia)). rewrite H in H'. now injection H'.
Qed.
Lemma no_contents fl checks : exits fl checks None [] 1.
Proof. now exists 0%nat. Qed.
Lemma not_utf8 fl checks bs : ~ valid_utf8 bs -> exits fl checks (Some bs) [] 1.
Proof.
  intros H. exists 0%nat. intros n _. cbn. destruct (utf8_ok bs) eqn:E; [|reflexivity]. now apply utf8_ok_spec in E.
Qed.
Lemma not_protocol fl checks bs : (forall ds, ~ denotes_text ds (text_of bs)) -> exits fl checks (Some bs) [] 1.
Proof.
  intros H. destruct (c33 (text_of bs)) as [[ds P]|P].
  - exfalso. destruct (greturns_run P) as (n & R & _). exact (H ds (parse_sound R)).
  - destruct P as [_ [N P]]. exists N. intros n L. cbn. destruct (utf8_ok bs); [|reflexivity]. unfold rpcgen. now rewrite P by exact L.
Qed.
Lemma rpcgen_parts fl checks src f : greturns (fun n => rpcgen n fl checks src) (GOk f) <->
  exists ds, denotes_text ds src /\ greturns (fun n => gen_code n (main_config fl checks) ds) (GOk f).
Proof.
  split.
  - intros H. destruct (rpcgen_runs H) as (N & ds & R). exists ds. split.
    + exact (parse_sound (proj1 (R N (le_n N)))).
    + split; [discriminate|]. exists N. intros n L. now apply R.
  - intros (ds & D & [_ [N G]]). destruct (c31 D) as [_ [N' P]]. split; [discriminate|]. exists (Nat.max N N'). intros n L.
    unfold rpcgen. rewrite P by lia. cbn [gbind]. apply G. lia.
Qed.
Lemma printed_some f : printed f <> [].
Proof. unfold printed. intros E. symmetry in E. now apply app_cons_not_nil in E. Qed.
Lemma rpcgen_settles fl checks src N : (forall n, (N <= n)%nat -> rpcgen n fl checks src <> GFuel) ->
  exists r, greturns (fun n => rpcgen n fl checks src) r.
Proof.
  intros H. destruct (c33 src) as [[ds [_ [M P]]]|[_ [M P]]].
  - set (k := Nat.max N M). pose proof (H k ltac:(lia)) as K. unfold rpcgen in K. rewrite P in K by lia. cbn [gbind] in K.
    exists (gen_code k (main_config fl checks) ds). split; [exact K|]. exists k. intros n L. unfold rpcgen. rewrite P by lia. cbn [gbind].
    now apply gen_mono.
  - exists (GErr GTrailingData). split; [discriminate|]. exists M. intros n L. unfold rpcgen. now rewrite P by exact L.
Qed.
Lemma main_runs fl checks bs r : valid_utf8 bs -> greturns (fun n => rpcgen n fl checks (text_of bs)) r ->
  match r with
  | GOk f => exits fl checks (Some bs) (bytes_of (printed f)) 0
  | GErr _ => exits fl checks (Some bs) [] 1
  | GPanic => exits fl checks (Some bs) [] 101
  | GFuel => False
  end.
Proof.
  intros V [D [N R]]. apply utf8_ok_spec in V.
  destruct r as [f|e| |]; [| | |now apply D]; exists N; intros n L; unfold main; rewrite V, R by exact L; reflexivity.
Qed.
Lemma main_ends fl checks bs out st : valid_utf8 bs -> exits fl checks (Some bs) out st ->
  exists r, greturns (fun n => rpcgen n fl checks (text_of bs)) r.
Proof.
  intros V [N H]. apply utf8_ok_spec in V. apply (@rpcgen_settles fl checks (text_of bs) N). intros n L E.
  specialize (H n L). unfold main in H. rewrite V, E in H. discriminate.
Qed.
Lemma bytes_text bs : bytes_of (text_of bs) = bs.
Proof. unfold text_of, bytes_of. rewrite map_map. rewrite <- (map_id bs) at 2. apply map_ext. intros b. apply byte_of_ascii_of_byte. Qed.

Lemma success fl checks c out : exits fl checks c out 0 <->
  exists bs ds f, c = Some bs /\ valid_utf8 bs /\ denotes_text ds (text_of bs) /\
    greturns (fun n => gen_code n (main_config fl checks) ds) (GOk f) /\ text_of out = printed f.
Proof.
  split.
  - intros H. destruct c as [bs|]; [|now destruct (exits_one H (no_contents fl checks))].
    destruct (utf8_ok bs) eqn:U.
    2: { assert (V : ~ valid_utf8 bs) by (rewrite <- utf8_ok_spec; congruence). now destruct (exits_one H (not_utf8 fl checks V)). }
    apply utf8_ok_spec in U. destruct (main_ends U H) as [r R]. pose proof (main_runs U R) as M.
    destruct r as [f|e| |]; [|now destruct (exits_one H M)|now destruct (exits_one H M)|contradiction].
    destruct (exits_one H M) as [-> _]. destruct (proj1 (rpcgen_parts fl checks (text_of bs) f) R) as (ds & D & G).
    exists bs, ds, f. repeat (split; [assumption || reflexivity|]). apply text_bytes.
  - intros (bs & ds & f & -> & V & D & G & T). rewrite <- (bytes_text out), T.
    exact (main_runs V (proj2 (rpcgen_parts fl checks (text_of bs) f) (ex_intro _ ds (conj D G)))).
Qed.
Lemma statuses fl checks c out st : exits fl checks c out st ->
  (st = 0 /\ out <> []) \/ ((st = 1 \/ st = 101) /\ out = []).
Proof.
  intros H. destruct c as [bs|]; [|destruct (exits_one H (no_contents fl checks)); tauto].
  destruct (utf8_ok bs) eqn:U.
  2: { assert (V : ~ valid_utf8 bs) by (rewrite <- utf8_ok_spec; congruence). destruct (exits_one H (not_utf8 fl checks V)). tauto. }
  apply utf8_ok_spec in U. destruct (main_ends U H) as [r R]. pose proof (main_runs U R) as M.
  destruct r as [f|e| |]; [|destruct (exits_one H M); tauto|destruct (exits_one H M); tauto|contradiction].
  left. destruct (exits_one H M) as [-> ->]. split; [reflexivity|]. intros E. apply (@printed_some f).
  rewrite <- (text_bytes (printed f)), E. reflexivity.
Qed.
Lemma good_file fl checks bs ds : valid_utf8 bs -> denotes_text ds (text_of bs) -> definitions_ok (main_config fl checks) ds ->
  exists out f, exits fl checks (Some bs) out 0 /\ greturns (fun n => gen_code n (main_config fl checks) ds) (GOk f) /\
    read_rust (text_of out) = Some (items_of f).
Proof.
  intros V D W. destruct (@accepted_read fl checks (text_of bs) ds (c31 D) W) as (f & R & T).
  exists (bytes_of (printed f)), f. split; [exact (main_runs V R)|]. split; [|now rewrite text_bytes].
  destruct (proj1 (rpcgen_parts fl checks (text_of bs) f) R) as (ds' & D' & G).
  assert (E : GOk ds = GOk ds') by exact (c33_unique (c31 D) (c31 D')). now injection E as ->.
Qed.
Lemma rpcgen_result fl checks src ds r : denotes_text ds src -> greturns (fun n => gen_code n (main_config fl checks) ds) r ->
  greturns (fun n => rpcgen n fl checks src) r.
Proof.
  intros D [Q [N G]]. destruct (c31 D) as [_ [N' P]]. split; [exact Q|]. exists (Nat.max N N'). intros n L.
  unfold rpcgen. rewrite P by lia. cbn [gbind]. apply G. lia.
Qed.
Lemma program_ends fl checks c : (forall bs ds, c = Some bs -> denotes_text ds (text_of bs) -> well_founded_names ds) ->
  exists out st, exits fl checks c out st.
Proof.
  intros W. destruct c as [bs|]; [|exists [], 1; apply no_contents].
  destruct (utf8_ok bs) eqn:U.
  2: { exists [], 1. apply not_utf8. rewrite <- utf8_ok_spec. congruence. }
  apply utf8_ok_spec in U. destruct (c33 (text_of bs)) as [[ds P]|P].
  - destruct (greturns_run P) as (n & R & _). pose proof (parse_sound R) as D.
    destruct (c41 (main_config fl checks) (W bs ds eq_refl D)) as [r G].
    pose proof (main_runs U (rpcgen_result D G)) as M. destruct r; [eauto|eauto|eauto|contradiction].
  - exists [], 1. apply (@main_runs fl checks bs (GErr GTrailingData) U). destruct P as [_ [N P]]. split; [discriminate|].
    exists N. intros n L. unfold rpcgen. now rewrite P by exact L.
Qed.
Lemma error_status fl checks bs ds : valid_utf8 bs -> denotes_text ds (text_of bs) ->
  (exits fl checks (Some bs) [] 1 <-> exists e, greturns (fun n => gen_code n (main_config fl checks) ds) (GErr e)) /\
  (exits fl checks (Some bs) [] 101 <-> greturns (fun n => gen_code n (main_config fl checks) ds) GPanic).
Proof.
  intros V D.
  assert (B : forall out st, exits fl checks (Some bs) out st -> exists r, greturns (fun n => gen_code n (main_config fl checks) ds) r /\
    greturns (fun n => rpcgen n fl checks (text_of bs)) r).
  { intros out st H. destruct (main_ends V H) as [r R]. exists r. split; [|exact R]. destruct R as [Q [N R]]. destruct (c31 D) as [_ [N' P]].
    split; [exact Q|]. exists (Nat.max N N'). intros n L. specialize (R n ltac:(lia)). unfold rpcgen in R. rewrite P in R by lia. exact R. }
  split; split.
  - intros H. destruct (B _ _ H) as (r & G & R). pose proof (main_runs V R) as M.
    destruct r as [f|e| |]; [now destruct (exits_one H M)|eauto|now destruct (exits_one H M)|contradiction].
  - intros [e G]. exact (main_runs V (rpcgen_result D G)).
  - intros H. destruct (B _ _ H) as (r & G & R). pose proof (main_runs V R) as M.
    destruct r as [f|e| |]; [now destruct (exits_one H M)|now destruct (exits_one H M)|exact G|contradiction].
  - intros G. exact (main_runs V (rpcgen_result D G)).
Qed.
