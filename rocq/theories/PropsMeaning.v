(** Property theorems about the meaning of the printed program (C99). *)
From Verif Require Import Base SpecUtf8 RustTypes SpecXdr SpecTypes SerModel DeModel Nom Ast ParserModel SpecGrammar SpecParse CaseModel SpecCase RustAst GenModel SpecGen
  SpecItems SpecXdl GenSem SpecWire ExamplesWire RustText SpecRust SpecMeaning SpecRun MainModel SpecMain MeaningLemmas RunProofs ExamplesMeaning.
Local Open Scope string_scope.
Local Open Scope list_scope.

(** ** C99 the types that the printed text defines speak the protocol *)
Theorem C99_program_speaks : forall fl checks bs ds, let cfg := main_config fl checks in
  valid_utf8 bs -> denotes_text ds (text_of bs) -> definitions_ok cfg ds ->
  exists out items E, exits fl checks (Some bs) out 0 /\ read_rust (text_of out) = Some items /\ meaning items = Some E /\
    forall x td xval, first x (type_defs ds) td -> is_typedef td = false ->
      (forall y l, td = TdEnum y l -> enum_impl_std_trait cfg = false \/ dense ds l) ->
      xtype ds (union_impl_union cfg) (TsIdent x) xval -> exists y v, camel_of x y /\ speaks E (TRef y) v xval.
Proof. exact program_speaks. Qed.
Print Assumptions C99_program_speaks.
Example C99_case : exists bs, valid_utf8 bs /\ denotes_text shapes (text_of bs) /\
  forall fl checks, definitions_ok (main_config fl checks) shapes /\ xtype shapes (use_union fl) (TsIdent "shape") shape_value.
Proof. exact shapes_speaks. Qed.
(** the types that all other properties of generated code are about are those of the text *)
Theorem C99_text_meaning : forall fl checks src f E, greturns (fun n => rpcgen n fl checks src) (GOk f) ->
  file_env f = Some E -> compiles f -> exists items, read_rust (printed f) = Some items /\ meaning items = Some E.
Proof. exact printed_meaning. Qed.
Print Assumptions C99_text_meaning.
Example C99_text_meaning_case : forall fl checks, exists f E,
  greturns (fun n => rpcgen n fl checks shapes_text) (GOk f) /\ file_env f = Some E /\ compiles f.
Proof. exact shapes_defined. Qed.
Example C99_meaning_case : read_rust hand_text = Some hand_items /\ meaning hand_items = Some
  [("E", TEnum [("A", VUnit); ("B", VUnit)]);
   ("P", TStruct [("x", TArray 3 (TInt true W32)); ("next", TOption (TBox (TRef "P"))); ("e", hand_e)]);
   ("I", hand_i); ("U", hand_u)].
Proof. exact hand_meaning. Qed.
Example C99_no_import_case : exists items, read_rust no_import_text = Some items /\ meaning items = None /\
  meaning (SiUse ["serde"] ["Serialize"; "Deserialize"] :: items) = Some [("P", TStruct [("x", TInt true W32)])].
Proof. exact no_import. Qed.
(** the tables of a meaning are what the functions of the impls return *)
Theorem C99_signed32_functions : forall items x zs table d, signed32 items x = Some (TSigned32 zs table d) -> exists names,
  enum_variants items x = Some names /\ length zs = length names /\
  (forall i n z, nth_error names i = Some n -> nth_error zs i = Some z ->
     exists e, call_gives items (is_applied "AsRef" "i32") x "as_ref" (DyVariant x n 0) (SeRef e) /\ i32_value e = Some z) /\
  (forall z, exists e, call_gives items (is_applied "TryFrom" "i32") x "try_from" (DyInt z) e /\
     result (variant_index x names) e = Some (with_dflt (assoc Z.eqb z table) d)).
Proof. exact signed32_runs. Qed.
Print Assumptions C99_signed32_functions.
Example C99_signed32_case : signed32 hand_items "E" = Some hand_e.
Proof. exact hand_signed32. Qed.
Theorem C99_indexer_functions : forall items x svs vs index names d, indexer items x svs = Some (TIndexer vs index names d) ->
  (forall v ts, assoc String.eqb v vs = Some ts ->
     exists e, call_gives items (is_type "XdrIndexer") x "index" (DyVariant x v (length ts)) e /\
       match assoc String.eqb v index with
       | Some z => i32_value e = Some z
       | None => result stringified e = Some DPanic
       end) /\
  (forall z, exists e, call_gives items (is_type "XdrIndexer") x "name_by_index" (DyInt z) e /\
     result stringified e = Some (with_dflt (assoc Z.eqb z names) d)).
Proof. exact indexer_runs. Qed.
Print Assumptions C99_indexer_functions.
Example C99_indexer_case : exists svs, indexer hand_items "I" svs = Some hand_i.
Proof. exact hand_indexer. Qed.
Theorem C99_union_functions : forall items x svs vs dt names d, union items x svs = Some (TUnion vs dt names d) ->
  forall v dv, dyn_of items dt v = Some dv -> (forall y ns, dt = TRef y -> enum_variants items y = Some ns -> NoDup ns) ->
  exists e, call_gives items is_union x "name_by_value" dv e /\ result stringified e = Some (with_dflt (assoc rval_eqb v names) d).
Proof. exact union_runs. Qed.
Print Assumptions C99_union_functions.
Example C99_union_case : exists svs, union hand_items "U" svs = Some hand_u /\ dyn_of hand_items TBool (RBool true) = Some (DyBool true).
Proof. exact hand_union. Qed.
