(** Inputs that programs generated with different flags accept or reject. *)
From Verif Require Import Base SpecUtf8 RustTypes SerModel DeModel SpecXdr SpecTypes SpecDecode XdrFacts EncProofs DecProofs CodecProofs CodecLemmas Nom NomFacts Keyword Ast
  ParserModel SpecGrammar SpecParse ParseSound ParserLemmas ConstProofs Utf8 Utf8Proofs CaseModel SpecCase CaseProofs RustAst GenModel SpecGen SpecItems
  GenFacts GenTotal GenPanic GenLemmas SpecXdl GenSem SpecWire SpecEmit SpecConv SpecSize SpecRead WireBase WireEnum WireLemmas WireEnums
  ExamplesGen ExamplesWire ExamplesConv.
Set Implicit Arguments.
Unset Strict Implicit.
Local Open Scope string_scope.
Local Open Scope list_scope.

(** ** The number of no member *)
Lemma hole_unread um : ~ exists xval, xread hole um false (TsIdent "e") xval [x00; x00; x00; x01].
Proof.
  intros [xval X]. inversion X; subst; match goal with H : first _ _ _ |- _ => apply assoc_first in H; vm_compute in H; try discriminate H; injection H as <- <- end.
  clear X. match goal with H : xread _ _ _ _ _ _ |- _ => inversion H as [| | | | | | | | | | | |? a z ? I V S|? ? ? ? D| | | | | | | |]; subst; [|discriminate] end.
  apply signed_val in S; [|lia]. destruct I as [<-|[<-|[]]]; cbn in V; [rewrite (value_is_fun V hole_a) in S|rewrite (value_is_fun V hole_c) in S]; vm_compute in S; discriminate.
Qed.
Lemma hole_read : exists fl src ds f E y bs v, let cfg := main_config fl true in
  greturns (fun n => parse n src) (GOk ds) /\ definitions_ok cfg ds /\ enum_impl_indexer cfg = false /\ generated cfg ds f E /\ camel_of "e" y /\
  returns (fun n => from_bytes n E (TRef y) bs) (Ok v) /\
  ~ exists xval, xread (map def_without_max ds) (union_impl_union cfg) (enum_impl_indexer cfg) (TsIdent "e") xval bs.
Proof.
  exists (Flags false false false false), hole_text, hole, hole_file, hole_env, "E", [x00; x00; x00; x01], (RVariant 1 []).
  split; [exact hole_parses|]. split; [apply hole_ok|]. split; [easy|]. split; [exact hole_generated|]. split; [now apply camel_of_iff|].
  split; [apply returns_from_bytes with 9%nat; [exact hole_decodes|easy]|exact (hole_unread (um := false))].
Qed.

(** ** The same file with the flags --union and --indexer *)
Definition only_union : flags := Flags false false false true.
Definition only_indexer : flags := Flags false false true false.
Definition no_flags : flags := Flags false false false false.
Definition exact_uufile : file := Eval vm_compute in file_of (main_config only_union true) exact.
Definition exact_uuenv : env := Eval vm_compute in env_of exact_uufile.
Lemma exact_uugenerated : generated (main_config only_union true) exact exact_uufile exact_uuenv.
Proof. gens. Qed.
Definition exact_ixfile : file := Eval vm_compute in file_of indexer_config exact.
Definition exact_ixenv : env := Eval vm_compute in env_of exact_ixfile.
Lemma exact_ixgenerated : generated indexer_config exact exact_ixfile exact_ixenv.
Proof. gens. Qed.

(** the word 2 for TRUE *)
Definition loose_rate : list byte := [x00; x00; x00; x02; x00; x00; x00; x07].
Lemma loose_union : from_bytes 40 exact_uuenv (TRef "Rate") loose_rate = Ok (RVariant 1 [RBool true; RInt 7]).
Proof. reflexivity. Qed.
Lemma loose_plain : exists e, from_bytes 40 exact_env (TRef "Rate") loose_rate = Err e.
Proof. eexists. reflexivity. Qed.
Lemma flags_union : exists src ds f f' E E' y bs v e, let cfg := main_config no_flags true in let cfg' := main_config only_union true in
  greturns (fun n => parse n src) (GOk ds) /\ definitions_ok cfg ds /\ definitions_ok cfg' ds /\ exact_defs cfg ds /\ exact_defs cfg' ds /\
  generated cfg ds f E /\ generated cfg' ds f' E' /\ camel_of "rate" y /\
  returns (fun n => from_bytes n E' (TRef y) bs) (Ok v) /\ returns (fun n => from_bytes n E (TRef y) bs) (Err e).
Proof.
  exists exact_text, exact, exact_file, exact_uufile, exact_env, exact_uuenv, "Rate", loose_rate, (RVariant 1 [RBool true; RInt 7]). destruct loose_plain as [e LP]. exists e.
  split; [exact exact_parses|]. split; [apply exact_ok|]. split; [apply exact_ok|]. split; [apply exact_exact|]. split; [apply exact_exact|].
  split; [exact exact_generated|]. split; [exact exact_uugenerated|]. split; [now apply camel_of_iff|].
  split; (apply returns_from_bytes with 40%nat; [first [exact loose_union|exact LP]|easy]).
Qed.
(** a colour that is none *)
Lemma flags_indexer : exists src ds f f' E E' y bs v e, let cfg := main_config no_flags true in let cfg' := main_config only_indexer true in
  greturns (fun n => parse n src) (GOk ds) /\ definitions_ok cfg ds /\ definitions_ok cfg' ds /\ exact_defs cfg ds /\ exact_defs cfg' ds /\
  generated cfg ds f E /\ generated cfg' ds f' E' /\ camel_of "color" y /\
  returns (fun n => from_bytes n E' (TRef y) bs) (Ok v) /\ returns (fun n => from_bytes n E (TRef y) bs) (Err e).
Proof.
  exists exact_text, exact, exact_file, exact_ixfile, exact_env, exact_ixenv, "Color", [x00; x00; x00; x09], (RVariant 0 []). eexists.
  split; [exact exact_parses|]. split; [apply exact_ok|]. split; [apply exact_ok|]. split; [apply exact_exact|]. split; [apply exact_exact|].
  split; [exact exact_generated|]. split; [exact exact_ixgenerated|]. split; [now apply camel_of_iff|].
  split; (apply returns_from_bytes with 40%nat; [reflexivity|easy]).
Qed.

(** padding that is not zero, a presence word of 3: accepted by all *)
Definition loose_shape : list byte :=
  [x00; x00; x00; x00; xff; xff; xff; xff; x00; x00; x00; x02; x61; x62; x63; x64; x00; x00; x00; x03;
   x00; x00; x00; x05; x00; x00; x00; x00; x00; x00; x00; x00; x00; x00; x00; x02; x00; x00; x00; x01].
Lemma loose_shapes : (exists v, from_bytes 40 exact_env (TRef "Shape") loose_shape = Ok v) /\ (exists v, from_bytes 40 exact_uuenv (TRef "Shape") loose_shape = Ok v) /\
  exists v, from_bytes 40 exact_ixenv (TRef "Shape") loose_shape = Ok v.
Proof. repeat split; eexists; vm_compute; reflexivity. Qed.
Lemma loose_read ix : xread (map def_without_max exact) true ix (TsIdent "rate") (XUnion (XEnum 1) (XUInt 7)) loose_rate.
Proof.
  eapply xr_name_union; [apply assoc_first; reflexivity|].
  refine (@xr_case _ _ _ _ _ _ _ _ 1 [VIdent "TRUE"] (VIdent "TRUE") (DVariable (TsInt false) "parts") _ [x00; x00; x00; x02] [x00; x00; x00; x07] eq_refl _ _ _ _ _ _).
  - apply xr_true with 2; [split; reflexivity|easy].
  - right. now right.
  - cbn. tauto.
  - now left.
  - right. now left.
  - constructor. constructor. split; reflexivity.
Qed.
