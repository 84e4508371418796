(** Concrete protocol files for the theorems about default values. *)
From Verif Require Import Base SpecUtf8 RustTypes SerModel DeModel SpecXdr SpecTypes SpecMisc XdrFacts EncProofs DecProofs CodecProofs CodecLemmas Nom NomFacts Keyword Ast
  ParserModel SpecGrammar SpecParse ParseSound ParserLemmas ConstProofs Utf8 Utf8Proofs CaseModel SpecCase CaseProofs RustAst GenModel SpecGen SpecItems
  GenFacts GenTotal GenPanic GenLemmas SpecXdl GenSem SpecWire SpecEmit SpecConv WireBase WireEnum WireLemmas WireEnums ExamplesGen ExamplesWire ExamplesConv ExamplesEmit ExamplesRun
  DefaultModel SpecDefault DefaultItems.
Set Implicit Arguments.
Unset Strict Implicit.
Local Open Scope string_scope.
Local Open Scope list_scope.

Lemma default_now f t v k : (forall n, default_of f (k + n) t = Ok v) -> returns (fun n => default_of f n t) (Ok v).
Proof. intros H. split; [easy|]. exists k. intros n L. replace n with (k + (n - k))%nat by lia. apply H. Qed.

(** C89 *)
Lemma endless_default : exists ds f E x, good_spec ds /\ generated plain_config ds f E /\ compiles f /\
  diverges (fun n => default_of f n (YName x)).
Proof.
  destruct endless_case as (G & C & F). destruct (default_endless (a := "next") G C F) as (y & _ & D); [now left|].
  exists endless, endless_file, endless_env, y. split; [exact endless_good|]. easy.
Qed.

(** C90 *)
Definition lone : list definition := Eval vm_compute in parsed "enum e { A = 5 }; union u switch (unsigned int k) { case A: int x; };".
Lemma lone_good : good_spec lone.
Proof. apply (@parsed_good "enum e { A = 5 }; union u switch (unsigned int k) { case A: int x; };"). vm_compute. reflexivity. Qed.
Definition lone_file : file := Eval vm_compute in file_of union_config lone.
Definition lone_env : env := Eval vm_compute in env_of lone_file.
Lemma lone_generated : generated union_config lone lone_file lone_env.
Proof. gens. Qed.
Lemma lone_compiles : compiles lone_file.
Proof. compiled (fun _ : string => O). Qed.
Ltac free := let x := fresh in let y := fresh in let l := fresh in let d := fresh in let H := fresh in
  intros x y l d H; cbn in H; repeat (destruct H as [H|H]; [discriminate H|]); destruct H.
Lemma lone_unread : exists ds f E v bs e, good_spec ds /\ generated union_config ds f E /\ compiles f /\ self_free ds /\
  returns (fun n => default_of f n (YName "U")) (Ok v) /\ returns (fun n => to_bytes n E (TRef "U") v) (Ok bs) /\
  returns (fun n => from_bytes n E (TRef "U") bs) (Err e).
Proof.
  exists lone, lone_file, lone_env, (RVariant 0 [RInt 0; RInt 0]), (repeat x00 8), (ECustom MCannotConvertValue).
  split; [exact lone_good|]. split; [exact lone_generated|]. split; [exact lone_compiles|]. split; [free|].
  split; [apply default_now with 3%nat; reflexivity|]. split; [apply (@returns_to_bytes 9); easy|apply returns_from_bytes with 9%nat; easy].
Qed.

Definition zero : list definition := Eval vm_compute in parsed "enum e { A = 0 }; union u switch (unsigned int k) { case A: int x; default: int y; };".
Lemma zero_good : good_spec zero.
Proof. apply (@parsed_good "enum e { A = 0 }; union u switch (unsigned int k) { case A: int x; default: int y; };"). vm_compute. reflexivity. Qed.
Definition zero_file : file := Eval vm_compute in file_of union_config zero.
Definition zero_env : env := Eval vm_compute in env_of zero_file.
Lemma zero_generated : generated union_config zero zero_file zero_env.
Proof. gens. Qed.
Lemma zero_compiles : compiles zero_file.
Proof. compiled (fun _ : string => O). Qed.
Lemma zero_changed : exists ds f E v bs w, good_spec ds /\ generated union_config ds f E /\ compiles f /\ self_free ds /\
  returns (fun n => default_of f n (YName "U")) (Ok v) /\ returns (fun n => to_bytes n E (TRef "U") v) (Ok bs) /\
  returns (fun n => from_bytes n E (TRef "U") bs) (Ok w) /\ w <> v.
Proof.
  exists zero, zero_file, zero_env, (RVariant 1 [RInt 0; RInt 0]), (repeat x00 8), (RVariant 0 [RInt 0; RInt 0]).
  split; [exact zero_good|]. split; [exact zero_generated|]. split; [exact zero_compiles|]. split; [free|].
  split; [apply default_now with 3%nat; reflexivity|]. split; [apply (@returns_to_bytes 9); easy|]. split; [apply returns_from_bytes with 9%nat; easy|discriminate].
Qed.

Lemma pick_unwritten : exists ds f E v, good_spec ds /\ generated indexer_config ds f E /\ compiles f /\ self_free ds /\
  returns (fun n => default_of f n (YName "U")) (Ok v) /\ returns (fun n => to_bytes n E (TRef "U") v) Panic.
Proof.
  exists pick, pick_ix_file, pick_ix_env, (RVariant 1 []).
  split; [exact pick_good|]. split; [exact pick_ix_generated|]. split; [exact pick_ix_compiles|]. split; [free|].
  split; [apply default_now with 3%nat; reflexivity|exact (proj2 pick_ix_read)].
Qed.

(** a protocol file for all flags *)
Lemma exact_free : self_free exact.
Proof.
  intros x y l d H Hd M. cbn in H. repeat (destruct H as [H|H]; [try discriminate; injection H as <- <- <-|]); [|destruct H].
  cbn in Hd. repeat (destruct Hd as [<-|Hd]; [try discriminate M|]); [|destruct Hd]. left. eauto.
Qed.
Lemma exact_arms : no_default_arms exact.
Proof.
  intros x y c specs dflt H. cbn in H. repeat (destruct H as [H|H]; [first [discriminate H|now injection H as _ _ _ _ <-]|]); destruct H.
Qed.
Lemma exact_start : unions_start_well exact.
Proof.
  intros x y u H. cbn in H. repeat (destruct H as [H|H]; [first [discriminate H|injection H as <- <- <-]|]); [| | |destruct H].
  - eexists (TsIdent "color"), _, 0. split; [reflexivity|]. split.
    + apply sn_enum with "color" colors (Assign "RED" (VConst (Decimal "0"))).
      * apply assoc_first. reflexivity.
      * now left.
      * exact ex_red.
      * intros b w Hb V. destruct (ex_value Hb V) as (i & _ & ->). lia.
    + split; [intros _|easy]. exists (VIdent "RED"). split; [now left|]. right. right. split; [discriminate|]. split; [discriminate|].
      eapply ex_label; [reflexivity|reflexivity|exact ex_red].
  - eexists TsBool, _, 0. split; [reflexivity|]. split; [constructor|]. split; [intros _|easy]. exists (VIdent "FALSE"). split; [now left|now left].
  - eexists TsBool, _, 0. split; [reflexivity|]. split; [constructor|]. split; [intros _|easy]. exists (VIdent "FALSE"). split; [now left|now left].
Qed.
Lemma exact_files : forall fl checks, exists f, greturns (fun n => gen_code n (main_config fl checks) exact) (GOk f) /\
  forallb (fun u => Z.leb (zlen (un_variants u)) (2 ^ 31)) (unions f) = true.
Proof. flags_cases; gens_all; vm_compute; reflexivity. Qed.
Lemma exact_small fl checks f E : generated (main_config fl checks) exact f E -> forall u, In u (unions f) -> zlen (un_variants u) <= 2 ^ 31.
Proof.
  intros [G _] u H. destruct (exact_files fl checks) as (f' & G' & K). pose proof (greturns_fun G G') as EQ. injection EQ as <-.
  rewrite forallb_forall in K. specialize (K u H). cbv beta in K. lia.
Qed.
Lemma exact_case : forall fl checks, let cfg := main_config fl checks in exists f E, generated cfg exact f E /\ compiles f /\ self_free exact /\
  (forall u, In u (unions f) -> zlen (un_variants u) <= 2 ^ 31) /\ no_default_arms exact /\ supported_defs cfg exact /\ unions_start_well exact.
Proof.
  intros fl checks cfg. pose proof (supported_main exact_parses (exact_ok fl checks)) as SD. destruct (w_exists SD) as (f & E & G & C).
  exists f, E. split; [exact G|]. split; [exact C|]. split; [exact exact_free|]. split; [exact (exact_small G)|]. split; [exact exact_arms|]. split; [exact SD|exact exact_start].
Qed.
