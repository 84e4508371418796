(** Property theorems about the text that rpcgen prints and about the program (C97, C98). *)
From Verif Require Import Base SpecUtf8 RustTypes SpecTypes Nom Ast ParserModel SpecGrammar SpecParse CaseModel SpecCase RustAst GenModel SpecGen
  SpecXdl GenSem SpecWire ExamplesGen ExamplesWire ExamplesReject RustText SpecRust SpecSyntax TextLegible MainModel SpecMain MainProofs ExamplesText.
Local Open Scope string_scope.
Local Open Scope list_scope.

(** ** C97 the printed text is Rust and reads back as the generated items *)
Theorem C97_text_is_rust : forall cfg ds f E, generated cfg ds f E -> compiles f ->
  read_rust (printed f) = Some (items_of f).
Proof. exact generated_read. Qed.
Print Assumptions C97_text_is_rust.
Theorem C97_accepted_text : forall fl checks src ds, greturns (fun n => parse n src) (GOk ds) ->
  definitions_ok (main_config fl checks) ds ->
  exists f, greturns (fun n => rpcgen n fl checks src) (GOk f) /\ read_rust (printed f) = Some (items_of f).
Proof. exact accepted_read. Qed.
Print Assumptions C97_accepted_text.
Example C97_accepted_case : exists src, greturns (fun n => parse n src) (GOk shapes) /\ forall fl checks, definitions_ok (main_config fl checks) shapes.
Proof. exact shapes_accepted. Qed.
(** for every file that rpcgen accepts the text is at least a sequence of balanced Rust tokens *)
Theorem C97_text_lexes : forall fl checks src f, greturns (fun n => rpcgen n fl checks src) (GOk f) ->
  exists ts, read_trees (printed f) = Some ts.
Proof. exact printed_lexes. Qed.
Print Assumptions C97_text_lexes.
(** the condition is needed: files without an error whose text is not Rust *)
Theorem C97_condition_needed : Forall (fun src => forall fl checks, exists f,
  greturns (fun n => rpcgen n fl checks src) (GOk f) /\ read_rust (printed f) = None) unread_sources.
Proof. exact unread. Qed.
Print Assumptions C97_condition_needed.
Example C97_text_case : exists f, greturns (fun n => rpcgen n (Flags false false false false) true small_source) (GOk f) /\
  str (printed f) = String.append
    "use serde :: { Deserialize , Serialize } ; pub const N : u32 = 3u32 ; # [derive (Clone , Debug , Default , Deserialize , Serialize)] pub struct Row { pub r#type : i32 , # [serde (with = ""serde_xdr::opaque::fixed"")] pub data : [u8 ; N as usize] }"
    (String "010"%char EmptyString).
Proof. exact small_printed. Qed.

(** ** C98 the program prints all of the code and ends with 0, or prints nothing and ends with another status *)
Theorem C98_all_or_nothing : forall fl checks contents out st, exits fl checks contents out st ->
  (st = 0 /\ out <> []) \/ ((st = 1 \/ st = 101) /\ out = []).
Proof. exact statuses. Qed.
Print Assumptions C98_all_or_nothing.
Theorem C98_success : forall fl checks contents out, exits fl checks contents out 0 <->
  exists bs ds f, contents = Some bs /\ valid_utf8 bs /\ denotes_text ds (text_of bs) /\
    greturns (fun n => gen_code n (main_config fl checks) ds) (GOk f) /\ text_of out = printed f.
Proof. exact success. Qed.
Print Assumptions C98_success.
Example C98_success_case : exists bs, forall fl checks, exists out, exits fl checks (Some bs) out 0.
Proof. exact shapes_exits. Qed.
Theorem C98_accepted : forall fl checks bs ds, valid_utf8 bs -> denotes_text ds (text_of bs) ->
  definitions_ok (main_config fl checks) ds ->
  exists out f, exits fl checks (Some bs) out 0 /\ greturns (fun n => gen_code n (main_config fl checks) ds) (GOk f) /\
    read_rust (text_of out) = Some (items_of f).
Proof. exact good_file. Qed.
Print Assumptions C98_accepted.
Example C98_accepted_case : exists bs, valid_utf8 bs /\ denotes_text shapes (text_of bs) /\
  forall fl checks, definitions_ok (main_config fl checks) shapes.
Proof. exact shapes_program. Qed.
Theorem C98_unreadable : forall fl checks, exits fl checks None [] 1.
Proof. exact no_contents. Qed.
Print Assumptions C98_unreadable.
Theorem C98_not_utf8 : forall fl checks bs, ~ valid_utf8 bs -> exits fl checks (Some bs) [] 1.
Proof. exact not_utf8. Qed.
Print Assumptions C98_not_utf8.
Example C98_not_utf8_case : ~ valid_utf8 ["255"%byte].
Proof. exact not_utf8_case. Qed.
Theorem C98_not_protocol : forall fl checks bs, (forall ds, ~ denotes_text ds (text_of bs)) -> exits fl checks (Some bs) [] 1.
Proof. exact not_protocol. Qed.
Print Assumptions C98_not_protocol.
Example C98_not_protocol_case : forall ds, ~ denotes_text ds (text_of (bytes_of (chars "struct s { int a }"))).
Proof. exact not_protocol_case. Qed.
Theorem C98_failures : forall fl checks bs ds, valid_utf8 bs -> denotes_text ds (text_of bs) ->
  (exits fl checks (Some bs) [] 1 <-> exists e, greturns (fun n => gen_code n (main_config fl checks) ds) (GErr e)) /\
  (exits fl checks (Some bs) [] 101 <-> greturns (fun n => gen_code n (main_config fl checks) ds) GPanic).
Proof. exact error_status. Qed.
Print Assumptions C98_failures.
Example C98_error_case : valid_utf8 error_bytes /\ (exists ds, denotes_text ds (text_of error_bytes)) /\
  exits (Flags false false false false) true (Some error_bytes) [] 1.
Proof. exact error_program. Qed.
Example C98_panic_case : exits (Flags false false false false) true (Some panic_bytes) [] 101.
Proof. exact panic_program. Qed.
Theorem C98_one_result : forall fl checks contents out st out' st', exits fl checks contents out st ->
  exits fl checks contents out' st' -> out = out' /\ st = st'.
Proof. exact exits_one. Qed.
Print Assumptions C98_one_result.
Theorem C98_ends : forall fl checks contents,
  (forall bs ds, contents = Some bs -> denotes_text ds (text_of bs) -> well_founded_names ds) ->
  exists out st, exits fl checks contents out st.
Proof. exact program_ends. Qed.
Print Assumptions C98_ends.
(** the condition of [C98_ends] is needed *)
Theorem C98_ends_needed : exists bs, valid_utf8 bs /\ forall fl checks out st, ~ exits fl checks (Some bs) out st.
Proof. exact loop_program. Qed.
Print Assumptions C98_ends_needed.
