(** Property theorems about what is emitted, and about running it (C63-C76). *)
From Coq Require Import Permutation.
From Verif Require Import Base RustTypes SpecXdr SpecTypes SpecMisc SerModel DeModel Nom Ast ParserModel SpecGrammar SpecParse
  CaseModel SpecCase RustAst GenModel SpecGen SpecItems SpecXdl GenSem SpecWire SpecEmit EmitProofs EmitFlags EmitItems EmitNames EmitRun EmitStop StuckProofs
  ExamplesGen ExamplesWire ExamplesEmit.
Local Open Scope string_scope.
Local Open Scope list_scope.

(** ** C63 declared maximum sizes are enforced: false *)
Theorem C63_maxima_refuted : exists ds f E v x, good_spec ds /\ generated plain_config ds f E /\ compiles f /\
  (forall dm, ~ xtype ds dm (TsIdent "limited") x) /\ speaks E (TRef "Limited") v x.
Proof. exact max_refuted. Qed.
Print Assumptions C63_maxima_refuted.
(** What holds instead: declared maxima have no influence on the code. *)
Theorem C63_maxima_partial : forall cfg ds n, gen_code n cfg (map def_without_max ds) = gen_code n cfg ds.
Proof. exact max_ignored. Qed.
Print Assumptions C63_maxima_partial.
Example C63_case : map def_without_max limited <> limited /\ greturns (fun n => gen_code n plain_config limited) (GOk limited_file).
Proof. exact limited_case. Qed.

(** ** C64 programs and % lines generate nothing *)
Theorem C64_programs : forall n cfg ds, gen_code n cfg (filter generates ds) = gen_code n cfg ds.
Proof. exact defs_ignored. Qed.
Print Assumptions C64_programs.
Example C64_case : greturns (fun n => gen_code n plain_config service) (GOk service_file) /\
  length service = 3%nat /\ length (filter generates service) = 1%nat /\ length (fi_types service_file) = 1%nat.
Proof. exact service_case. Qed.

(** ** C65 the order of definitions does not matter *)
Theorem C65_order : forall cfg ds ds' f, Permutation ds ds' -> no_redefinition ds ->
  greturns (fun n => gen_code n cfg ds) (GOk f) -> exists f', greturns (fun n => gen_code n cfg ds') (GOk f') /\
    fi_uses f' = fi_uses f /\ Permutation (fi_consts f) (fi_consts f') /\ Permutation (fi_types f) (fi_types f').
Proof. exact order_irrelevant. Qed.
Print Assumptions C65_order.
Example C65_case : Permutation shapes (rev shapes) /\ no_redefinition shapes /\
  greturns (fun n => gen_code n plain_config shapes) (GOk (file_of plain_config shapes)).
Proof. exact shapes_case. Qed.

(** ** C66 a flag changes only the items it is about *)
Theorem C66_flags : forall fl fl' checks src f f', greturns (fun n => rpcgen n fl checks src) (GOk f) ->
  greturns (fun n => rpcgen n fl' checks src) (GOk f') ->
  fi_consts f = fi_consts f' /\
  (use_std_trait fl = use_std_trait fl' -> structs f = structs f') /\
  (use_std_trait fl = use_std_trait fl' -> (use_std_trait fl = false -> use_indexer fl = use_indexer fl') -> enums f = enums f') /\
  (use_union fl = use_union fl' ->
   (use_union fl = false -> use_extra_trait fl || use_indexer fl = use_extra_trait fl' || use_indexer fl') -> unions f = unions f').
Proof. exact flags_named. Qed.
Print Assumptions C66_flags.
Example C66_case : forall fl checks, exists f, greturns (fun n => rpcgen n fl checks shapes_text) (GOk f) /\
  structs f <> [] /\ enums f <> [] /\ unions f <> [].
Proof. exact shapes_runs. Qed.

(** ** C67 the imports that the items need are there *)
Theorem C67_imports : forall fl checks src f, greturns (fun n => rpcgen n fl checks src) (GOk f) ->
  (forall e, In e (enums f) ->
     (en_derive e = DvIndexer <-> en_indexer e <> None) /\ en_derive e <> DvUnion /\
     (en_indexer e <> None -> In UseIndexer (fi_uses f) /\ In UseSerializeTuple (fi_uses f))) /\
  (forall u, In u (unions f) ->
     (un_derive u = DvIndexer <-> un_indexer u <> None) /\ (un_derive u = DvUnion <-> un_union u <> None) /\
     (un_indexer u <> None -> In UseIndexer (fi_uses f) /\ In UseSerializeTuple (fi_uses f)) /\
     (un_union u <> None -> In UseUnion (fi_uses f) /\ In UseSerializeTuple (fi_uses f))).
Proof. exact imports. Qed.
Print Assumptions C67_imports.
Example C67_case : forall fl checks, exists f, greturns (fun n => rpcgen n fl checks shapes_text) (GOk f) /\
  structs f <> [] /\ enums f <> [] /\ unions f <> [].
Proof. exact shapes_runs. Qed.

(** ** C68 Default of generated enums and unions *)
Theorem C68_enum_default : forall cfg ds f e, good_spec ds -> one_scope ds ->
  greturns (fun n => gen_code n cfg ds) (GOk f) -> In e (enums f) ->
  exists x y l a z, In (x, TdEnum y l) (type_defs ds) /\ camel_of x (en_name e) /\ In a l /\ camel_of (as_name a) (en_default e) /\
    value_is ds (as_value a) z /\ forall b w, In b l -> value_is ds (as_value b) w -> z <= w.
Proof. exact enum_default. Qed.
Print Assumptions C68_enum_default.
Theorem C68_union_default : forall cfg ds f u, good_spec ds -> one_scope ds ->
  greturns (fun n => gen_code n cfg ds) (GOk f) -> In u (unions f) ->
  exists x y c specs dflt, In (x, TdUnion y (UBody c specs dflt)) (type_defs ds) /\ camel_of x (un_name u) /\
    names_variant (un_variants u) (un_default u) /\
    match dflt with
    | Some _ => fst (un_default u) = TokId "Default"
    | None => exists v z, In v (labels specs) /\ case_number ds c v z /\
        (forall w z', In w (labels specs) -> case_number ds c w z' -> z <= z') /\
        (forall k, v = VIdent k -> exists m, fst (un_default u) = TokId m /\ camel_of k m)
    end.
Proof. exact default_of. Qed.
Print Assumptions C68_union_default.
Example C68_case : good_spec pick /\ one_scope pick /\ greturns (fun n => gen_code n plain_config pick) (GOk pick_file) /\
  enums pick_file <> [] /\ unions pick_file <> [].
Proof. exact (conj pick_good (conj pick_scope (conj (proj1 pick_generated) pick_has))). Qed.

(** ** C69 type names are usable in Rust: false for "self" *)
Theorem C69_type_names_refuted : forall fl checks, exists f i,
  greturns (fun n => rpcgen n fl checks (chars "struct self { int a; };")) (GOk f) /\
  In i (fi_types f) /\ In (item_name i) rust_words.
Proof. exact self_type. Qed.
Print Assumptions C69_type_names_refuted.
(** Missing: the name Self. *)
Theorem C69_type_names_partial : forall cfg ds f i, greturns (fun n => gen_code n cfg ds) (GOk f) -> In i (fi_types f) ->
  In (item_name i) rust_words -> item_name i = "Self".
Proof. exact type_words. Qed.
Print Assumptions C69_type_names_partial.
Example C69_case : forall fl checks, exists f i,
  greturns (fun n => rpcgen n fl checks (chars "struct self { int a; };")) (GOk f) /\
  In i (fi_types f) /\ In (item_name i) rust_words.
Proof. exact self_type. Qed.

(** ** C70 constant names are usable in Rust: false *)
Theorem C70_const_names_refuted : forall fl checks, exists f c,
  greturns (fun n => rpcgen n fl checks (chars "const match = 3;")) (GOk f) /\
  In c (fi_consts f) /\ In (co_name c) rust_words.
Proof. exact match_const. Qed.
Print Assumptions C70_const_names_refuted.
(** What holds instead: constants keep their names. *)
Theorem C70_const_names_partial : forall cfg ds f, greturns (fun n => gen_code n cfg ds) (GOk f) ->
  map co_name (fi_consts f) = map fst (const_defs ds).
Proof. exact const_words. Qed.
Print Assumptions C70_const_names_partial.
Example C70_case : greturns (fun n => gen_code n plain_config shapes) (GOk (file_of plain_config shapes)) /\
  map fst (const_defs shapes) = ["MAX"; "LIMIT"].
Proof. exact shapes_consts. Qed.

(** ** C71 generated types have a finite size: false *)
Theorem C71_finite_refuted : forall fl checks src, In src [mutual_text; union_text; idiom_text] ->
  exists f, greturns (fun n => rpcgen n fl checks src) (GOk f) /\ ~ finite_size f.
Proof. exact infinite. Qed.
Print Assumptions C71_finite_refuted.
(** Missing: recursion other than of a struct through its own name. *)
Theorem C71_finite_partial : forall cfg ds f s, greturns (fun n => gen_code n cfg ds) (GOk f) -> In s (structs f) ->
  exists x y l, In (x, TdStruct y l) (type_defs ds) /\ camel_of x (st_name s) /\
    Forall2 (fun d fd => mentions d = Some (TsIdent x) -> exists t, fd_ty fd = YBox t) l (st_fields s).
Proof. exact self_boxed. Qed.
Print Assumptions C71_finite_partial.
Example C71_case : exists f s, greturns (fun n => rpcgen n (Flags false false false false) true list_text) (GOk f) /\
  In s (structs f) /\ finite_size f.
Proof. exact list_case. Qed.

(** ** C72 numbers can be case labels: false *)
Theorem C72_numbers_refuted : forall fl checks, exists f,
  greturns (fun n => gen_code n (main_config fl checks) numbered) (GOk f) /\ file_env f = None.
Proof. exact numbered_stuck. Qed.
Print Assumptions C72_numbers_refuted.
(** What holds instead: the variant is named by the number. *)
Theorem C72_numbers_partial : forall cfg ds f x y t w specs dflt c, good_spec ds ->
  greturns (fun n => gen_code n cfg ds) (GOk f) ->
  In (x, TdUnion y (UBody (DVariable t w) specs dflt)) (type_defs ds) -> t <> TsBool -> In (VConst c) (labels specs) ->
  exists u va z, In u (unions f) /\ camel_of x (un_name u) /\ In va (un_variants u) /\ va_name va = TokNum z /\ stands_for c z.
Proof. exact numeric_label. Qed.
Print Assumptions C72_numbers_partial.
Example C72_case : good_spec numbered /\ forall fl checks, exists f,
  greturns (fun n => gen_code n (main_config fl checks) numbered) (GOk f) /\ file_env f = None.
Proof. exact (conj numbered_good numbered_stuck). Qed.

(** ** C73 default mode: words of no member are rejected: false *)
Theorem C73_words_refuted : exists ds f E x l z bs v, good_spec ds /\ generated plain_config ds f E /\ compiles f /\
  In (x, TdEnum x l) (type_defs ds) /\ (forall a, In a l -> ~ value_is ds (as_value a) z) /\ signed 4 z bs /\
  returns (fun n => from_bytes n E (TRef "E") bs) (Ok v).
Proof. exact holed_refuted. Qed.
Print Assumptions C73_words_refuted.
(** What holds instead: exactly the words from 0 to the greatest member are read. *)
Theorem C73_words_partial : forall cfg ds f x y l, good_spec ds -> one_scope ds ->
  enum_impl_std_trait cfg = false -> enum_impl_indexer cfg = false ->
  greturns (fun n => gen_code n cfg ds) (GOk f) -> compiles f ->
  (forall a z, In a l -> value_is ds (as_value a) z -> 0 <= z) -> In (x, TdEnum y l) (type_defs ds) ->
  exists e T a M, In (IEnum e) (fi_types f) /\ camel_of x (en_name e) /\ enum_sem e = Some T /\
    In a l /\ value_is ds (as_value a) M /\ (forall b z, In b l -> value_is ds (as_value b) z -> z <= M) /\
    forall E w bs, signed 4 w bs ->
      (0 <= w <= M -> returns (fun n => from_bytes n E T bs) (Ok (RVariant (Z.to_nat w) []))) /\
      (~ 0 <= w <= M -> exists err, returns (fun n => from_bytes n E T bs) (Err err)).
Proof. exact default_words. Qed.
Print Assumptions C73_words_partial.
Example C73_case : good_spec holed /\ one_scope holed /\ greturns (fun n => gen_code n plain_config holed) (GOk holed_file) /\
  compiles holed_file /\ forall a z, In a [Assign "A" (dec "0"); Assign "B" (dec "2")] -> value_is holed (as_value a) z -> 0 <= z.
Proof. exact holed_case. Qed.

(** ** C74 decoding a value of a generated type terminates: false *)
Theorem C74_terminates_refuted : exists ds f E x, good_spec ds /\ generated plain_config ds f E /\ compiles f /\
  forall i, diverges (fun n => from_bytes n E (TRef x) i).
Proof. exact endless_refuted. Qed.
Print Assumptions C74_terminates_refuted.
(** Missing: structs with a field of their own type. *)
Theorem C74_terminates_partial : forall cfg ds f E x T i, greturns (fun n => gen_code n cfg ds) (GOk f) ->
  file_env f = Some E -> compiles f -> self_free ds -> lookup E x = Some T ->
  exists r, returns (fun n => from_bytes n E (TRef x) i) r.
Proof. exact generated_terminates. Qed.
Print Assumptions C74_terminates_partial.
Theorem C74_outcome_partial : forall cfg ds f E x T i, greturns (fun n => gen_code n cfg ds) (GOk f) ->
  file_env f = Some E -> compiles f -> self_free ds -> lookup E x = Some T -> zlen i mod 4 = 0 ->
  (exists v, returns (fun n => from_bytes n E (TRef x) i) (Ok v)) \/ exists e, returns (fun n => from_bytes n E (TRef x) i) (Err e).
Proof. exact generated_outcome. Qed.
Print Assumptions C74_outcome_partial.
Example C74_case : forall fl checks, exists f E, generated (main_config fl checks) shapes f E /\ compiles f /\ self_free shapes.
Proof. exact shapes_whole. Qed.

(** ** C75 decoding whole units as a generated type never panics *)
Theorem C75_decode_no_panic : forall cfg ds f E x i n, greturns (fun n => gen_code n cfg ds) (GOk f) ->
  file_env f = Some E -> zlen i mod 4 = 0 -> from_bytes n E (TRef x) i <> Panic.
Proof. exact generated_no_panic. Qed.
Print Assumptions C75_decode_no_panic.
Example C75_case : forall fl checks, exists f E, generated (main_config fl checks) shapes f E /\ compiles f /\ self_free shapes.
Proof. exact shapes_whole. Qed.

(** ** C76 encoding a value of a generated type never panics: false *)
Theorem C76_encode_no_panic_refuted : exists ds f E v bs, good_spec ds /\ generated indexer_config ds f E /\ compiles f /\
  returns (fun n => from_bytes n E (TRef "U") bs) (Ok v) /\ returns (fun n => to_bytes n E (TRef "U") v) Panic.
Proof. exact choice_panics. Qed.
Print Assumptions C76_encode_no_panic_refuted.
(** Missing: unions with a default arm in the indexer mode. *)
Theorem C76_encode_no_panic_partial : forall cfg ds f E x v n, greturns (fun n => gen_code n cfg ds) (GOk f) ->
  file_env f = Some E -> (union_impl_indexer cfg = true -> no_default_arms ds) -> to_bytes n E (TRef x) v <> Panic.
Proof. exact encode_no_panic. Qed.
Print Assumptions C76_encode_no_panic_partial.
Example C76_case : generated indexer_config choice choice_file choice_env /\ union_impl_indexer indexer_config = true /\ no_default_arms choice.
Proof. exact choice_case. Qed.
