(** Concrete cases for the texts of errors (C120 - C122). *)
From Verif Require Import Base SpecUtf8 Utf8 Utf8Proofs RustTypes Nom Ast ParserModel SpecGrammar SpecParse ParseSound ParseComplete ParserLemmas RustAst GenModel SpecGen GenFacts
  SpecTranslate SpecToolPanic SpecToolError MainModel SpecMain MainProofs SpecStatus ExamplesParser ExamplesGen ExamplesTranslate ExamplesToolPanic ExamplesToolError
  ExamplesStatus DisplayModel SpecDisplay.
Local Open Scope string_scope.
Local Open Scope list_scope.

(** only ASCII is printable *)
Definition ascii_only (c : Z) : bool := ((32 <=? c) && (c <=? 126))%Z.
Lemma ascii_only_prints : prints_ascii ascii_only.
Proof. intros c. unfold ascii_print, ascii_only. lia. Qed.
(** the letter a, a quote, a backslash, a line feed and e with an acute accent *)
Definition odd_message : xdr_error := XCustom [97; 34; 92; 10; 233].
Lemma odd_text : sane odd_message /\ display_xdr ascii_only odd_message = codes "error: Custom(""a\""\\\n\u{e9}"")".
Proof. split; [|reflexivity]. cbn. repeat constructor; lia. Qed.
Lemma encoding_text : sane (XEncoding 12 (Some 1)) /\
  display_xdr ascii_only (XEncoding 12 (Some 1)) = codes "error: Encoding(Utf8Error { valid_up_to: 12, error_len: Some(1) })".
Proof. split; [cbn; lia|reflexivity]. Qed.
Lemma big_complaint : good_name "BIG" /\ protocol_file (Some (bytes_of big_text)) big_file /\
  fails_with (main_config tool true) big_file (GNotFoundIdentifier "BIG").
Proof.
  destruct big_error_case as (P & F & _). split; [now apply simple_name|]. split; [|exact F].
  apply as_file; [vm_compute; reflexivity|exact P].
Qed.
Lemma broken_complaint : exists bs, Some (bytes_of (chars "int x;")) = Some bs /\ valid_utf8 bs /\ forall ds, ~ denotes_text ds (text_of bs).
Proof.
  eexists. split; [reflexivity|]. split; [now apply utf8_ok_spec|]. intros ds D. rewrite text_bytes in D.
  assert (R : greturns (fun n => parse n (chars "int x;")) (GErr GTrailingData)) by (apply (@parse_returns 20); cbn; lia).
  pose proof (c33_unique R (c31 D)). discriminate.
Qed.
