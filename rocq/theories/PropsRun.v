(** Property theorems about running generated code on arbitrary bytes (C81 - C83). *)
From Verif Require Import Base RustTypes SpecXdr SpecTypes SpecMisc SpecCase SerModel DeModel Ast ParserModel SpecGrammar SpecParse GenModel SpecGen SpecItems GenSem SpecXdl SpecWire SpecEmit SpecSize EmitNorm EmitSize
  SpecConv UnionSize ExamplesGen ExamplesWire ExamplesEmit ExamplesConv ExamplesRun.
Local Open Scope string_scope.
Local Open Scope list_scope.

(** ** C81 what a generated type decodes it can write back: false, a default
    arm in the indexer mode panics *)
Theorem C81_normalised_refuted : exists ds f E v bs, good_spec ds /\ generated indexer_config ds f E /\ compiles f /\
  returns (fun n => from_bytes n E (TRef "U") bs) (Ok v) /\ forall bs', ~ returns (fun n => to_bytes n E (TRef "U") v) (Ok bs').
Proof. exact choice_unwritten. Qed.
Print Assumptions C81_normalised_refuted.
(** Missing: unions with a default arm in the indexer mode. *)
Theorem C81_normalised_partial : forall cfg ds f E x bs v n, generated cfg ds f E -> compiles f ->
  (union_impl_indexer cfg = true -> no_default_arms ds) ->
  from_bytes n E (TRef x) bs = Ok v ->
  exists bs', returns (fun n => to_bytes n E (TRef x) v) (Ok bs') /\ zlen bs' = zlen bs /\
    returns (fun n => from_bytes n E (TRef x) bs') (Ok v).
Proof. exact generated_normalise. Qed.
Print Assumptions C81_normalised_partial.
Example C81_case : generated indexer_config choice choice_file choice_env /\ compiles choice_file /\ no_default_arms choice /\
  returns (fun n => from_bytes n choice_env (TRef "E") [x00; x00; x00; x07]) (Ok (RVariant 0 [])) /\
  returns (fun n => to_bytes n choice_env (TRef "E") (RVariant 0 [])) (Ok [x00; x00; x00; x00]).
Proof. exact (conj (proj1 choice_case) (conj choice_compiles (conj (proj2 (proj2 choice_case)) choice_reads))). Qed.

(** ** C82 a struct with a field of its own type can be neither read nor written *)
Theorem C82_endless : forall cfg ds f E x y l a, generated cfg ds f E -> compiles f ->
  first x (type_defs ds) (TdStruct y l) -> In (DVariable (TsIdent x) a) l ->
  exists y', camel_of x y' /\ (forall n bs v, from_bytes n E (TRef y') bs <> Ok v) /\
    (forall n v bs, to_bytes n E (TRef y') v <> Ok bs).
Proof. exact generated_endless. Qed.
Print Assumptions C82_endless.
Example C82_case : generated plain_config endless endless_file endless_env /\ compiles endless_file /\
  first "node" (type_defs endless) (TdStruct "node" [DVariable (TsIdent "node") "next"]).
Proof. exact endless_case. Qed.

(** ** C83 a type whose XDR values all have one size decodes only inputs of this
    size: false, reserved variants of a union carry nothing *)
Theorem C83_size_refuted : exists ds f E k bs v, good_spec ds /\ generated plain_config ds f E /\ compiles f /\
  fixed true ds (TsIdent "u") k /\ returns (fun n => from_bytes n E (TRef "U") bs) (Ok v) /\ zlen bs < k.
Proof. exact gap_short. Qed.
Print Assumptions C83_size_refuted.
(** Missing: types that contain a union, except for those of C83_unions_partial. *)
Theorem C83_size_partial : forall cfg ds f E x k, good_spec ds -> generated cfg ds f E -> compiles f ->
  (exists td, first x (type_defs ds) td /\ is_typedef td = false) -> fixed false ds (TsIdent x) k ->
  exists y, camel_of x y /\ forall n bs v, from_bytes n E (TRef y) bs = Ok v -> zlen bs = k.
Proof. exact generated_size. Qed.
Print Assumptions C83_size_partial.
(** Unions of one size, where the definitions are exact (C78): no gap is filled
    with reserved variants. *)
Theorem C83_unions_partial : forall fl checks src ds, let cfg := main_config fl checks in
  greturns (fun n => parse n src) (GOk ds) -> definitions_ok cfg ds -> exact_defs cfg ds ->
  exists f E, generated cfg ds f E /\ compiles f /\
    forall x td k, first x (type_defs ds) td -> is_typedef td = false -> fixed true ds (TsIdent x) k ->
      exists y, camel_of x y /\ forall n bs v, from_bytes n E (TRef y) bs = Ok v -> zlen bs = k.
Proof. exact size_unions. Qed.
Print Assumptions C83_unions_partial.
Example C83_unions_file : forall fl checks, greturns (fun n => parse n exact_text) (GOk exact) /\
  definitions_ok (main_config fl checks) exact /\ exact_defs (main_config fl checks) exact.
Proof. exact (fun fl checks => conj exact_parses (conj (exact_ok fl checks) (exact_exact fl checks))). Qed.
Example C83_unions_case : first "rate" (type_defs exact) (TdUnion "rate" (UBody (DVariable TsBool "fine")
    [CaseSpec [VIdent "FALSE"] (DVariable TsFloat "rough"); CaseSpec [VIdent "TRUE"] (DVariable (TsInt false) "parts")] None)) /\
  fixed true exact (TsIdent "rate") 8 /\ ~ fixed true exact (TsIdent "maybe") 12.
Proof. exact rate_fixed. Qed.
Example C83_unions_value : from_bytes 40 exact_env (TRef "Rate") rate_bytes = Ok (RVariant 1 [RInt 7]).
Proof. exact rate_decodes. Qed.
Example C83_case : (good_spec header /\ generated plain_config header header_file header_env /\ compiles header_file /\
  (exists td, first "head" (type_defs header) td /\ is_typedef td = false) /\ fixed false header (TsIdent "head") 28) /\
  exists v, from_bytes 40 header_env (TRef "Head") (repeat x61 16 ++ repeat x00 12) = Ok v.
Proof. exact (conj header_case header_reads). Qed.
