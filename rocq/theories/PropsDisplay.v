(** Property theorems about the texts of errors (C120 - C122). *)
From Verif Require Import Base SpecUtf8 Nom Ast ParserModel SpecGrammar SpecParse RustAst GenModel SpecGen
  SpecTranslate SpecToolPanic SpecToolError MainModel SpecMain SpecStatus DisplayModel SpecDisplay DisplayProofs ComplainProofs
  ExamplesGen ExamplesTranslate ExamplesToolPanic ExamplesToolError ExamplesDisplay.
Local Open Scope string_scope.
Local Open Scope list_scope.

(** ** C120 the text of an error of serde-xdr says which error it is *)
Theorem C120_injective : forall plain e e', sane e -> sane e' -> display_xdr plain e = display_xdr plain e' -> e = e'.
Proof. exact display_inj. Qed.
Print Assumptions C120_injective.
Theorem C120_numbers : forall plain k, 0 <= k -> exists d, decimal d k /\
  display_xdr plain (XNotEnoughData k) = codes "error: NotEnoughData(" ++ d ++ codes ")" /\
  display_xdr plain (XTrailingData k) = codes "error: TrailingData(" ++ d ++ codes ")".
Proof. exact display_numbers. Qed.
Print Assumptions C120_numbers.
Example C120_case : sane (XEncoding 12 (Some 1)) /\
  display_xdr ascii_only (XEncoding 12 (Some 1)) = codes "error: Encoding(Utf8Error { valid_up_to: 12, error_len: Some(1) })".
Proof. exact encoding_text. Qed.

(** ** C121 the text of an error of serde-xdr is one line *)
Theorem C121_characters : forall plain e c, sane e -> In c (display_xdr plain e) ->
  ascii_print c \/ exists s, e = XCustom s /\ In c s /\ plain c = true /\ ~ In c [0; 9; 10; 13].
Proof. exact display_chars. Qed.
Print Assumptions C121_characters.
Example C121_case : sane odd_message /\ display_xdr ascii_only odd_message = codes "error: Custom(""a\""\\\n\u{e9}"")".
Proof. exact odd_text. Qed.

(** ** C122 what rpcgen prints on the standard error, from the contents of the file *)
Theorem C122_status : forall plain io pm fl checks contents,
  (exists t, complains plain io pm fl checks contents t) <-> exits fl checks contents [] 1.
Proof. exact complains_status. Qed.
Print Assumptions C122_status.
Theorem C122_named : forall plain io pm fl checks contents x, prints_ascii plain -> good_name x ->
  (complains plain io pm fl checks contents (codes "Error: RpcGen(NotFountIdentifier(""" ++ codes x ++ codes """))" ++ [10]) <->
   exists ds, protocol_file contents ds /\ fails_with (main_config fl checks) ds (GNotFoundIdentifier x)).
Proof. exact complains_named. Qed.
Print Assumptions C122_named.
Theorem C122_unsupported : forall plain io pm fl checks contents,
  complains plain io pm fl checks contents (codes "Error: RpcGen(NotSupported)" ++ [10]) <->
  exists ds, protocol_file contents ds /\ fails_with (main_config fl checks) ds GNotSupported.
Proof. exact complains_unsupported. Qed.
Print Assumptions C122_unsupported.
Theorem C122_syntax : forall plain io pm fl checks contents,
  complains plain io pm fl checks contents (codes "Error: RpcGen(TrailingData)" ++ [10]) <->
  exists bs, contents = Some bs /\ valid_utf8 bs /\ forall ds, ~ denotes_text ds (text_of bs).
Proof. exact complains_syntax. Qed.
Print Assumptions C122_syntax.
Theorem C122_line : forall plain io pm e, Forall (fun c => 0 <= c) pm ->
  exists t, message plain io pm (FGen e) = t ++ [10] /\ ~ In 10 t.
Proof. exact message_line. Qed.
Print Assumptions C122_line.
Example C122_case : prints_ascii ascii_only /\ good_name "BIG" /\ protocol_file (Some (bytes_of big_text)) big_file /\
  fails_with (main_config tool true) big_file (GNotFoundIdentifier "BIG").
Proof. exact (conj ascii_only_prints big_complaint). Qed.
Example C122_case_syntax : exists bs, Some (bytes_of (chars "int x;")) = Some bs /\ valid_utf8 bs /\ forall ds, ~ denotes_text ds (text_of bs).
Proof. exact broken_complaint. Qed.
