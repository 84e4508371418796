(** Concrete protocol files for the theorems about running generated code. *)
From Verif Require Import Base SpecUtf8 RustTypes SerModel DeModel SpecXdr SpecTypes SpecMisc XdrFacts EncProofs DecProofs CodecProofs CodecLemmas Nom NomFacts Keyword Ast
  ParserModel SpecGrammar SpecParse ParseSound ParserLemmas ConstProofs Utf8 Utf8Proofs CaseModel SpecCase CaseProofs RustAst GenModel SpecGen SpecItems
  GenFacts GenTotal GenPanic GenLemmas SpecXdl GenSem SpecWire SpecEmit SpecSize WireBase WireEnum WireLemmas WireEnums EmitRun EmitStop EmitSize ExamplesGen ExamplesWire ExamplesEmit.
Set Implicit Arguments.
Unset Strict Implicit.
Local Open Scope string_scope.
Local Open Scope list_scope.

(** C81: written back, a value of a default arm panics *)
Lemma returns_det {A} (f : nat -> res A) r s : returns f r -> returns f s -> r = s.
Proof. intros [_ [N H]] [_ [M K]]. rewrite <- (H (Nat.max N M)), <- (K (Nat.max N M)); [easy|lia|lia]. Qed.
Lemma choice_unwritten : exists ds f E v bs, good_spec ds /\ generated indexer_config ds f E /\ compiles f /\
  returns (fun n => from_bytes n E (TRef "U") bs) (Ok v) /\ forall bs', ~ returns (fun n => to_bytes n E (TRef "U") v) (Ok bs').
Proof.
  destruct choice_panics as (ds & f & E & v & bs & G & GE & C & R & P). exists ds, f, E, v, bs. repeat (split; [assumption|]).
  intros bs' Q. pose proof (returns_det P Q). discriminate.
Qed.
Lemma choice_compiles : compiles choice_file.
Proof. compiled (fun x : string => if String.eqb x "U" then 1%nat else O). Qed.
(** the number 7 stands for no member of the enum and is read as the first one *)
Lemma choice_reads : returns (fun n => from_bytes n choice_env (TRef "E") [x00; x00; x00; x07]) (Ok (RVariant 0 [])) /\
  returns (fun n => to_bytes n choice_env (TRef "E") (RVariant 0 [])) (Ok [x00; x00; x00; x00]).
Proof. split; [apply returns_from_bytes with 9%nat; easy|apply (@returns_to_bytes 9); easy]. Qed.

(** C82 *)
Lemma endless_case : generated plain_config endless endless_file endless_env /\ compiles endless_file /\
  first "node" (type_defs endless) (TdStruct "node" [DVariable (TsIdent "node") "next"]).
Proof. split; [exact endless_generated|]. split; [exact endless_compiles|]. now apply assoc_first. Qed.

(** C83 *)
Definition gap : list definition := Eval vm_compute in parsed "enum e { A = 0, B = 2 }; union u switch (e s) { case A: int x; case B: int y; };".
Lemma gap_good : good_spec gap.
Proof. apply (@parsed_good "enum e { A = 0, B = 2 }; union u switch (e s) { case A: int x; case B: int y; };"). vm_compute. reflexivity. Qed.
Definition gap_file : file := Eval vm_compute in file_of plain_config gap.
Definition gap_env : env := Eval vm_compute in env_of gap_file.
Lemma gap_generated : generated plain_config gap gap_file gap_env.
Proof. gens. Qed.
Lemma gap_compiles : compiles gap_file.
Proof. compiled (fun x : string => if String.eqb x "U" then 1%nat else O). Qed.
Lemma gap_short : exists ds f E k bs v, good_spec ds /\ generated plain_config ds f E /\ compiles f /\
  fixed true ds (TsIdent "u") k /\ returns (fun n => from_bytes n E (TRef "U") bs) (Ok v) /\ zlen bs < k.
Proof.
  exists gap, gap_file, gap_env, 8, [x00; x00; x00; x01], (RVariant 1 []).
  split; [exact gap_good|]. split; [exact gap_generated|]. split; [exact gap_compiles|]. split; [|split; [apply returns_from_bytes with 9%nat; easy|reflexivity]].
  eapply (@fx_union true gap "u" "u" _ _ _ 4); [reflexivity|apply assoc_first; vm_compute; reflexivity| |discriminate].
  intros vs d [H|[H|[]]]; injection H as <- <-; apply fd_variable, fx_int.
Qed.

Definition header : list definition := Eval vm_compute in
  parsed "const IDLEN = 5; enum kind { CALL = 0, REPLY = 1 }; typedef int span[2]; struct head { opaque id[IDLEN]; hyper when; kind what; span at; };".
Lemma header_good : good_spec header.
Proof.
  apply (@parsed_good "const IDLEN = 5; enum kind { CALL = 0, REPLY = 1 }; typedef int span[2]; struct head { opaque id[IDLEN]; hyper when; kind what; span at; };").
  vm_compute. reflexivity.
Qed.
Definition header_file : file := Eval vm_compute in file_of plain_config header.
Definition header_env : env := Eval vm_compute in env_of header_file.
Lemma header_generated : generated plain_config header header_file header_env.
Proof. gens. Qed.
Lemma header_compiles : compiles header_file.
Proof. compiled (fun x : string => if String.eqb x "Head" then 1%nat else O).
  2: constructor. split; [split; [discriminate|]|exists false, 5; reflexivity].
  intros c H K. cbn in H. repeat (destruct H as [<-|H]; [cbn in K; intuition discriminate|]). destruct H.
Qed.
Lemma header_fixed : fixed false header (TsIdent "head") 28.
Proof.
  eapply fx_struct; [apply assoc_first; vm_compute; reflexivity|].
  change 28 with (8 + (8 + (4 + (2 * 4 + 0)))).
  apply fa_cons; [|apply fa_cons; [|apply fa_cons; [|apply fa_cons; [|apply fa_nil]]]].
  - apply fd_opaque with 5; [|lia|reflexivity]. eapply vi_const; [apply assoc_first; vm_compute; reflexivity|]. apply vi_number.
    apply (@const_stands header "IDLEN" KU32); [exact header_good|now left|reflexivity].
  - apply fd_variable, fx_hyper.
  - apply fd_variable. eapply fx_enum. apply assoc_first. vm_compute. reflexivity.
  - apply fd_variable. eapply fx_typedef; [apply assoc_first; vm_compute; reflexivity|]. apply fd_array; [apply fx_int|].
    apply vi_number. apply (@dec_stands KU32); [discriminate|repeat constructor|discriminate|reflexivity].
Qed.
Lemma header_struct : exists td, first "head" (type_defs header) td /\ is_typedef td = false.
Proof. eexists. split; [apply assoc_first; vm_compute; reflexivity|reflexivity]. Qed.
Lemma header_case : good_spec header /\ generated plain_config header header_file header_env /\ compiles header_file /\
  (exists td, first "head" (type_defs header) td /\ is_typedef td = false) /\ fixed false header (TsIdent "head") 28.
Proof. exact (conj header_good (conj header_generated (conj header_compiles (conj header_struct header_fixed)))). Qed.
Lemma header_reads : exists v, from_bytes 40 header_env (TRef "Head") (repeat x61 16 ++ repeat x00 12) = Ok v.
Proof. eexists. vm_compute. reflexivity. Qed.
