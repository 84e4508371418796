(** Property theorems about decoded values of generated types (C77, C78). *)
From Verif Require Import Base RustTypes SpecXdr SpecTypes SerModel DeModel Nom Ast ParserModel SpecGrammar SpecParse
  CaseModel SpecCase RustAst GenModel SpecGen SpecItems SpecXdl GenSem SpecWire SpecEmit SpecConv ConvLemmas
  ExamplesGen ExamplesConv.
Local Open Scope string_scope.
Local Open Scope list_scope.

(** ** C77 programs generated with different flags understand each other: false *)
Theorem C77_flags_agree_refuted : exists fl fl' src ds f f' E E' y v bs v' bs',
  greturns (fun n => parse n src) (GOk ds) /\
  definitions_ok (main_config fl true) ds /\ definitions_ok (main_config fl' true) ds /\
  generated (main_config fl true) ds f E /\ generated (main_config fl' true) ds f' E' /\ camel_of "e" y /\
  returns (fun n => from_bytes n E (TRef y) bs) (Ok v) /\ returns (fun n => to_bytes n E (TRef y) v) (Ok bs) /\
  returns (fun n => from_bytes n E' (TRef y) bs) (Ok v') /\ returns (fun n => to_bytes n E' (TRef y) v') (Ok bs') /\
  bs' <> bs.
Proof. exact holex_witness. Qed.
Print Assumptions C77_flags_agree_refuted.
(** Missing: gaps that one of the two fills with reserved variants, case labels
    outside the discriminant, and default arms outside the union mode. *)
Theorem C77_flags_agree_partial : forall fl fl' checks checks' src ds f f' E E',
  let cfg := main_config fl checks in let cfg' := main_config fl' checks' in
  greturns (fun n => parse n src) (GOk ds) ->
  definitions_ok cfg ds -> exact_defs cfg ds -> definitions_ok cfg' ds -> exact_defs cfg' ds ->
  generated cfg ds f E -> generated cfg' ds f' E' ->
  forall x td, first x (type_defs ds) td -> is_typedef td = false ->
    (forall y l, td = TdEnum y l ->
       enum_impl_std_trait cfg = false /\ enum_impl_std_trait cfg' = false \/ dense ds l) ->
    exists y, camel_of x y /\ forall n bs v, from_bytes n E (TRef y) bs = Ok v ->
      exists bs' v', returns (fun n => to_bytes n E (TRef y) v) (Ok bs') /\
        returns (fun n => from_bytes n E' (TRef y) bs') (Ok v') /\
        returns (fun n => to_bytes n E' (TRef y) v') (Ok bs') /\
        returns (fun n => from_bytes n E (TRef y) bs') (Ok v).
Proof. exact c77. Qed.
Print Assumptions C77_flags_agree_partial.
Example C77_case_file : forall fl checks, greturns (fun n => parse n exact_text) (GOk exact) /\
  definitions_ok (main_config fl checks) exact /\ exact_defs (main_config fl checks) exact.
Proof. exact (fun fl checks => conj exact_parses (conj (exact_ok fl checks) (exact_exact fl checks))). Qed.
Example C77_case_code : generated plain_config exact exact_file exact_env /\ generated union_config exact exact_ufile exact_uenv.
Proof. exact (conj exact_generated exact_ugenerated). Qed.
Example C77_case_value : exists v, from_bytes 40 exact_uenv (TRef "Shape") shape_bytes = Ok v.
Proof. exact shape_udecodes. Qed.

(** ** C78 a decoded value is a value of the protocol: false *)
Theorem C78_decoded_refuted : exists src ds f E y v bs, greturns (fun n => parse n src) (GOk ds) /\ definitions_ok plain_config ds /\
  generated plain_config ds f E /\ camel_of "e" y /\
  returns (fun n => from_bytes n E (TRef y) bs) (Ok v) /\ returns (fun n => to_bytes n E (TRef y) v) (Ok bs) /\
  forall dm xval, xtype ds dm (TsIdent "e") xval -> ~ rfc xval bs.
Proof. exact hole_witness. Qed.
Print Assumptions C78_decoded_refuted.
(** Missing: declared maxima (C63), gaps filled with reserved variants, case
    labels outside the discriminant, default arms outside the union mode. *)
Theorem C78_decoded_partial : forall fl checks src ds, let cfg := main_config fl checks in
  greturns (fun n => parse n src) (GOk ds) -> definitions_ok cfg ds -> exact_defs cfg ds ->
  exists f E, generated cfg ds f E /\ compiles f /\
    forall x td, first x (type_defs ds) td -> is_typedef td = false ->
      (forall y l, td = TdEnum y l -> enum_impl_std_trait cfg = false \/ dense ds l) ->
      exists y, camel_of x y /\ forall n bs v, from_bytes n E (TRef y) bs = Ok v ->
        exists xval, xtype (map def_without_max ds) (union_impl_union cfg) (TsIdent x) xval /\ speaks E (TRef y) v xval.
Proof. exact c78. Qed.
Print Assumptions C78_decoded_partial.
Example C78_case_file : forall fl checks, greturns (fun n => parse n exact_text) (GOk exact) /\
  definitions_ok (main_config fl checks) exact /\ exact_defs (main_config fl checks) exact.
Proof. exact (fun fl checks => conj exact_parses (conj (exact_ok fl checks) (exact_exact fl checks))). Qed.
Example C78_case_value : exists v, from_bytes 40 exact_env (TRef "Shape") shape_bytes = Ok v.
Proof. exact shape_decodes. Qed.
