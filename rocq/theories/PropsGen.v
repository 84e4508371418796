(** Property theorems of rpcgen's code generator about names, numbers,
    termination and panics (C40-C42, C51-C55, C57, C58). *)
From Verif Require Import Base RustTypes Nom Keyword Ast ParserModel SpecGrammar SpecParse
  CaseModel SpecCase RustAst GenModel SpecGen SpecItems GenLemmas ExamplesGen.
Local Open Scope string_scope.
Local Open Scope list_scope.

(** ** C40 a name stands for the first constant, otherwise the first member:
    false when the constant does not fit the integer type that is wanted *)
Theorem C40_first_constant_refuted : exists ds f e, good_spec ds /\
  In (DefType (TdEnum "b" [Assign "M" (VIdent "X")])) ds /\ value_is ds (VIdent "X") 5000000000 /\
  greturns (fun n => gen_code n std_config ds) (GOk f) /\
  In (IEnum e) (fi_types f) /\ en_name e = "B" /\ en_values e = [("M", 1)].
Proof. exact c40_refuted. Qed.
Print Assumptions C40_first_constant_refuted.
(** Missing: values outside the integer type (see above). *)
Theorem C40_value_partial : forall cfg ds cs ts k v z,
  setup_context ds = (cs, ts) -> good_spec ds -> good_value v -> value_is ds v z -> fits k z ->
  greturns (fun n => resolve_value (Context cfg cs ts) n k v) (GOk z).
Proof. exact c40_value. Qed.
Print Assumptions C40_value_partial.
Theorem C40_only_that_value_partial : forall cfg ds cs ts k v z,
  setup_context ds = (cs, ts) -> good_spec ds -> good_value v -> one_scope ds ->
  greturns (fun n => resolve_value (Context cfg cs ts) n k v) (GOk z) -> value_is ds v z /\ fits k z.
Proof. exact c40_only. Qed.
Print Assumptions C40_only_that_value_partial.
Theorem C40_unknown_name : forall cfg ds cs ts k x, setup_context ds = (cs, ts) ->
  ~ In x (map fst (const_defs ds)) -> ~ In x (map fst (member_defs ds)) ->
  greturns (fun n => resolve_value (Context cfg cs ts) n k (VIdent x)) (GErr (GNotFoundIdentifier x)).
Proof. exact c40_missing. Qed.
Print Assumptions C40_unknown_name.
Example C40_case : good_spec proto /\ one_scope proto /\ value_is proto (VIdent "DEEP_BLUE") 255 /\ fits KI32 255.
Proof. exact (conj proto_good (conj proto_scope (conj proto_value proto_fits))). Qed.
Example C40_unknown_case : ~ In "VIOLET" (map fst (const_defs proto)) /\ ~ In "VIOLET" (map fst (member_defs proto)).
Proof. exact proto_missing. Qed.

(** ** C41 generation terminates: false for definitions that refer to
    themselves *)
Theorem C41_terminates_refuted : exists t ds, greturns (fun n => parse n t) (GOk ds) /\
  forall cfg, gdiverges (fun n => gen_code n cfg ds).
Proof. exact (ex_intro _ loop_text (ex_intro _ loop_defs (conj loop_parses loop_diverges))). Qed.
Print Assumptions C41_terminates_refuted.
Theorem C41_typedefs_refuted : exists t ds, greturns (fun n => parse n t) (GOk ds) /\
  forall f checks, gdiverges (fun n => gen_code n (main_config f checks) ds).
Proof. exact (ex_intro _ typedef_loop_text (ex_intro _ typedef_loop (conj typedef_loop_parses typedef_loop_diverges))). Qed.
Print Assumptions C41_typedefs_refuted.
(** Missing: files whose constants, members or typedefs refer to themselves. *)
Theorem C41_terminates_partial : forall cfg ds, well_founded_names ds ->
  exists r, greturns (fun n => gen_code n cfg ds) r.
Proof. exact c41. Qed.
Print Assumptions C41_terminates_partial.
Theorem C41_one_result : forall cfg ds r s, greturns (fun n => gen_code n cfg ds) r ->
  greturns (fun n => gen_code n cfg ds) s -> r = s.
Proof. exact c41_one. Qed.
Print Assumptions C41_one_result.
Example C41_case : well_founded_names proto.
Proof. exact proto_well_founded. Qed.

(** ** C42 generation never panics: false *)
Theorem C42_never_panics_refuted : Forall panics panic_cases.
Proof. exact c42_refuted. Qed.
Print Assumptions C42_never_panics_refuted.
(** Missing: void fields, names without a letter in front, unions over bool
    without a TRUE or FALSE case, names that are constant and member, and the
    numbers excluded by [numbers_ok]. *)
Theorem C42_never_panics_partial : forall cfg ds,
  good_spec ds -> names_ok ds -> one_scope ds ->
  numbers_ok
    (fun z => (overflow_checks cfg = true \/ enum_complement_index cfg = true -> z <> 2 ^ 31 - 1) /\
              (enum_complement_index cfg = true -> -1 <= z))
    (fun z => overflow_checks cfg = true -> z <> 2 ^ 32 - 1) ds ->
  ~ greturns (fun n => gen_code n cfg ds) GPanic.
Proof. exact c42. Qed.
Print Assumptions C42_never_panics_partial.
Example C42_case : good_spec proto /\ names_ok proto /\ one_scope proto.
Proof. exact (conj proto_good (conj proto_names proto_scope)). Qed.
Example C42_case_numbers : numbers_ok
    (fun z => (overflow_checks plain_config = true \/ enum_complement_index plain_config = true -> z <> 2 ^ 31 - 1) /\
              (enum_complement_index plain_config = true -> -1 <= z))
    (fun z => overflow_checks plain_config = true -> z <> 2 ^ 32 - 1) proto.
Proof. exact proto_numbers. Qed.

(** ** C51 upper camel case *)
Theorem C51_exact : forall x y, camelled x y <-> y = upper_camel_case x.
Proof. exact camel_exact. Qed.
Print Assumptions C51_exact.
Theorem C51_idempotent : forall t, upper_camel_case (upper_camel_case t) = upper_camel_case t.
Proof. exact CaseProofs.camel_idempotent. Qed.
Print Assumptions C51_idempotent.
Theorem C51_no_underscore : forall t, ~ In underscore (upper_camel_case t).
Proof. exact c51_no_us. Qed.
Print Assumptions C51_no_underscore.
Theorem C51_same_letters : forall t, letters (upper_camel_case t) = letters t.
Proof. exact CaseProofs.camel_letters. Qed.
Print Assumptions C51_same_letters.
Theorem C51_no_small_start : forall t,
  match upper_camel_case t with c :: _ => ~ In c smalls | [] => True end.
Proof. exact camel_start. Qed.
Print Assumptions C51_no_small_start.
Example C51_case : upper_camel_case (chars "nfs3err_NOT_syncAll") = chars "Nfs3errNotSyncall".
Proof. exact eq_refl. Qed.

(** ** C52 snake case *)
Theorem C52_exact : forall x y, snaked x y <-> y = snake_case x.
Proof. exact snake_exact. Qed.
Print Assumptions C52_exact.
Theorem C52_idempotent : forall t, snake_case (snake_case t) = snake_case t.
Proof. exact CaseProofs.snake_idempotent. Qed.
Print Assumptions C52_idempotent.
Theorem C52_no_capital : forall t c, In c (snake_case t) -> ~ In c capitals.
Proof. exact c52_no_capital. Qed.
Print Assumptions C52_no_capital.
Theorem C52_identity : forall t, (forall c, In c t -> ~ In c capitals) -> snake_case t = t.
Proof. exact c52_id. Qed.
Print Assumptions C52_identity.
Theorem C52_same_letters : forall t, letters (snake_case t) = letters t.
Proof. exact CaseProofs.snake_letters. Qed.
Print Assumptions C52_same_letters.
Example C52_case : snake_case (chars "fileId3Name") = chars "file_id3_name".
Proof. exact eq_refl. Qed.

(** ** C53 constants: false for constants defined by another constant *)
Theorem C53_constant_refuted : exists ds, good_spec ds /\ In (DefConst (Assign "B" (VIdent "A"))) ds /\
  value_is ds (VIdent "A") 5000000000 /\
  forall cfg, exists f, greturns (fun n => gen_code n cfg ds) (GOk f) /\
    In (ConstItem "B" false (TokId "A")) (fi_consts f).
Proof. exact c53_refuted. Qed.
Print Assumptions C53_constant_refuted.
(** Missing: the width of constants defined by an identifier. *)
Theorem C53_constants_partial : forall cfg ds f, good_spec ds ->
  greturns (fun n => gen_code n cfg ds) (GOk f) -> Forall2 const_item_for (const_defs ds) (fi_consts f).
Proof. exact c53. Qed.
Print Assumptions C53_constants_partial.
Theorem C53_out_of_range : forall cfg ds x k z, good_spec ds -> In (x, VConst k) (const_defs ds) ->
  stands_for k z -> ~ 0 <= z < 2 ^ 64 -> greturns (fun n => gen_code n cfg ds) (GErr GParse).
Proof. exact c53_err. Qed.
Print Assumptions C53_out_of_range.
Example C53_case : good_spec proto /\ greturns (fun n => gen_code n std_config proto) (GOk proto_file).
Proof. exact (conj proto_good proto_generates). Qed.
Example C53_range_case : exists ds c z, good_spec ds /\ In ("A", VConst c) (const_defs ds) /\
  stands_for c z /\ ~ 0 <= z < 2 ^ 64.
Proof. exact negative_case. Qed.

(** ** C54 flags *)
Theorem C54_flags : forall f checks, let c := main_config f checks in
  remove_typedef c = true /\
  (enum_impl_std_trait c = true <-> use_std_trait f = true) /\
  (enum_impl_indexer c = true <-> use_indexer f = true /\ use_std_trait f = false) /\
  (union_impl_union c = true <-> use_union f = true) /\
  (union_impl_indexer c = true <->
     (use_extra_trait f = true \/ use_indexer f = true) /\ use_union f = false).
Proof. exact c54. Qed.
Print Assumptions C54_flags.
Example C54_case : main_config (Flags true false true false) true = Config true false true true false true.
Proof. exact eq_refl. Qed.

(** ** C55 one item per definition, in order *)
Theorem C55_items : forall cfg ds f, greturns (fun n => gen_code n cfg ds) (GOk f) ->
  Forall2 item_for (item_defs (remove_typedef cfg) ds) (fi_types f).
Proof. exact c55. Qed.
Print Assumptions C55_items.
Example C55_case : greturns (fun n => gen_code n std_config proto) (GOk proto_file).
Proof. exact proto_generates. Qed.

(** ** C57 distinct names stay distinct: false *)
Theorem C57_distinct_refuted : exists x y ds f e, good_name x /\ good_name y /\ x <> y /\
  In (DefType (TdEnum "e" [Assign x (dec "0"); Assign y (dec "1")])) ds /\
  greturns (fun n => gen_code n plain_config ds) (GOk f) /\
  In (IEnum e) (fi_types f) /\ exists z, en_values e = [(z, 0); (z, 1)].
Proof. exact c57_refuted. Qed.
Print Assumptions C57_distinct_refuted.
(** Missing: names that differ only in case or underscores, except for these. *)
Theorem C57_screaming_partial : forall s t, screaming s -> screaming t ->
  In underscore s -> In underscore t -> upper_camel_case s = upper_camel_case t -> s = t.
Proof. exact c57_screaming. Qed.
Print Assumptions C57_screaming_partial.
Theorem C57_one_word_partial : forall c s d t, ~ In underscore (c :: s) -> ~ In underscore (d :: t) ->
  upper_camel_case (c :: s) = upper_camel_case (d :: t) -> s = t /\ big c = big d.
Proof. exact c57_plain. Qed.
Print Assumptions C57_one_word_partial.
Theorem C57_fields_partial : forall s t, (forall c, In c s -> ~ In c capitals) ->
  (forall c, In c t -> ~ In c capitals) -> snake_case s = snake_case t -> s = t.
Proof. exact c57_fields. Qed.
Print Assumptions C57_fields_partial.
Theorem C57_letters_partial : forall s t,
  upper_camel_case s = upper_camel_case t \/ snake_case s = snake_case t -> letters s = letters t.
Proof. exact c57_any. Qed.
Print Assumptions C57_letters_partial.
Example C57_case : screaming (chars "NFS3ERR_NOT_SYNC") /\ In underscore (chars "NFS3ERR_NOT_SYNC").
Proof. exact screaming_case. Qed.

(** ** C58 field names are usable: false for names with capitals *)
Theorem C58_field_names_refuted : exists ds f y, good_spec ds /\
  greturns (fun n => gen_code n plain_config ds) (GOk f) /\ emitted_field f (Id y) /\ In y rust_words.
Proof. exact c58_refuted. Qed.
Print Assumptions C58_field_names_refuted.
(** Missing: fields with a capital in their name. *)
Theorem C58_field_names_partial : forall cfg ds f y, good_spec ds ->
  greturns (fun n => gen_code n cfg ds) (GOk f) -> emitted_field f (Id y) -> In y rust_words ->
  exists x, field_of ds x /\ has_capital x /\ snaked (chars x) (chars y).
Proof. exact c58. Qed.
Print Assumptions C58_field_names_partial.
Example C58_case : greturns (fun n => gen_code n std_config proto) (GOk proto_file) /\
  emitted_field proto_file (RawId "type").
Proof. exact (conj proto_generates raw_case). Qed.
