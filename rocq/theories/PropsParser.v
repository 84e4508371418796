(** Property theorems of rpcgen's parser (C31-C39, C60-C62). *)
From Verif Require Import Base Nom Ast ParserModel SpecGrammar SpecParse ParserLemmas ExamplesParser.
Local Open Scope string_scope.
Local Open Scope list_scope.

(** ** C31 the parser accepts the grammar *)
Theorem C31_accepts_grammar : forall t ds, denotes_text ds t ->
  greturns (fun n => parse n t) (GOk ds).
Proof. exact c31. Qed.
Print Assumptions C31_accepts_grammar.
Example C31_case : denotes_text sample_ast sample_text.
Proof. exact sample_denotes. Qed.

(** ** C32 the parser accepts nothing else *)
Theorem C32_accepts_only_grammar : forall t ds, greturns (fun n => parse n t) (GOk ds) ->
  denotes_text ds t.
Proof. exact c32. Qed.
Print Assumptions C32_accepts_only_grammar.
Example C32_case : greturns (fun n => parse n sample_text) (GOk sample_ast).
Proof. exact sample_returns. Qed.

(** ** C33 parse terminates; the only error is TrailingData *)
Theorem C33_terminates : forall t,
  (exists ds, greturns (fun n => parse n t) (GOk ds)) \/
  greturns (fun n => parse n t) (GErr GTrailingData).
Proof. exact c33. Qed.
Print Assumptions C33_terminates.
Theorem C33_one_result : forall t r1 r2, greturns (fun n => parse n t) r1 ->
  greturns (fun n => parse n t) r2 -> r1 = r2.
Proof. exact c33_unique. Qed.
Print Assumptions C33_one_result.
Example C33_case : greturns (fun n => parse n (chars "const A = 1; x")) (GErr GTrailingData).
Proof. exact trailing_returns. Qed.

(** ** C34 parsed definitions are well-formed *)
Theorem C34_well_formed : forall t ds, greturns (fun n => parse n t) (GOk ds) -> good_spec ds.
Proof. exact c34. Qed.
Print Assumptions C34_well_formed.
Example C34_case : greturns (fun n => parse n sample_text) (GOk sample_ast).
Proof. exact sample_returns. Qed.

(** ** C35 files without definitions: false, only the empty file is accepted *)
Theorem C35_blank_refuted : exists t, blank t /\ ~ greturns (fun n => parse n t) (GOk []).
Proof. exact c35_refuted. Qed.
Print Assumptions C35_blank_refuted.
(** Missing: every non-empty blank text; what happens for those is the second
    theorem. *)
Theorem C35_empty_partial : greturns (fun n => parse n []) (GOk []).
Proof. exact c35_empty. Qed.
Print Assumptions C35_empty_partial.
Theorem C35_blank_rejected : forall t, blank t -> t <> [] ->
  greturns (fun n => parse n t) (GErr GTrailingData).
Proof. exact c35_all. Qed.
Print Assumptions C35_blank_rejected.
Example C35_case : blank (chars " /* no definitions */ ").
Proof. exact comment_blank. Qed.

(** ** C36 any identifier can be used as a type name: false *)
Theorem C36_type_name_refuted : exists T, good_name T /\
  forall x, ~ greturns (fun n => parse n (typedef_text (chars T ++ chars " x")))
             (GOk [DefType (TdDecl (DVariable (TsIdent T) x))]).
Proof. exact c36_refuted. Qed.
Print Assumptions C36_type_name_refuted.
(** Missing: type names beginning with "void", "char" and "short". *)
Theorem C36_type_name_partial : forall T w x, good_name T -> good_name x ->
  strip (chars "void") (chars T) = None -> ~ In T ["char"; "short"] -> spaces w -> w <> [] ->
  greturns (fun n => parse n (typedef_text (chars T ++ w ++ chars x)))
           (GOk [DefType (TdDecl (DVariable (TsIdent T) x))]).
Proof. exact c36_partial. Qed.
Print Assumptions C36_type_name_partial.
Example C36_case : good_name "integer" /\ good_name "unsigned_".
Proof. split; apply simple_name; reflexivity. Qed.

(** ** C37 built-in types next to punctuation: false *)
Theorem C37_punctuation_refuted :
  greturns (fun n => parse n (typedef_text (chars "int*p"))) (GErr GTrailingData) /\
  greturns (fun n => parse n (typedef_text (chars "int *p"))) (GOk [DefType (TdDecl (DOption (TsInt true) "p"))]).
Proof. exact c37_refuted. Qed.
Print Assumptions C37_punctuation_refuted.
(** Missing: built-in types that are not followed by white space. *)
Theorem C37_spaced_partial : forall t u w x, builtin t u -> spaces w -> w <> [] -> good_name x ->
  greturns (fun n => parse n (typedef_text (u ++ w ++ chars x))) (GOk [DefType (TdDecl (DVariable t x))]) /\
  greturns (fun n => parse n (typedef_text (u ++ w ++ chars "*" ++ chars x))) (GOk [DefType (TdDecl (DOption t x))]).
Proof. exact c37_partial. Qed.
Print Assumptions C37_spaced_partial.
Example C37_case : builtin (TsHyper false) (chars "unsigned" ++ [" "; " "]%char ++ chars "hyper") /\
  good_name "char".
Proof. split; [apply bi_uhyper; [repeat constructor|discriminate]|now apply simple_name]. Qed.

(** ** C38 numeric constants denote their value *)
Theorem C38_value : forall k c, good_constant c ->
  exists z, stands_for c z /\ (forall w, stands_for c w -> w = z) /\
    (fits k z -> constant_value k c = GOk z) /\ (~ fits k z -> constant_value k c = GErr GParse).
Proof. exact c38. Qed.
Print Assumptions C38_value.
Theorem C38_in_text : forall x c, good_name x -> good_constant c ->
  greturns (fun n => parse n (chars "const " ++ chars x ++ chars " = " ++ chars (constant_text c) ++ chars ";"))
    (GOk [DefConst (Assign x (VConst c))]).
Proof. exact const_text. Qed.
Print Assumptions C38_in_text.
Example C38_case : (good_constant (Hex "Ff") /\ stands_for (Hex "Ff") 255) /\
  good_constant (Decimal "-3") /\ stands_for (Decimal "-3") (-3).
Proof. exact (conj hex_max dec_minus). Qed.

(** ** C39 layout is irrelevant *)
Theorem C39_layout : forall ds i1 i2, good_spec ds ->
  written (w_spec ds) i1 [] -> written (w_spec ds) i2 [] ->
  exists r, greturns (fun n => parse n i1) r /\ greturns (fun n => parse n i2) r.
Proof. exact c39. Qed.
Print Assumptions C39_layout.
Theorem C39_padding : forall b1 b2 t ds, blank b1 -> blank b2 -> ds <> [] ->
  greturns (fun n => parse n t) (GOk ds) -> greturns (fun n => parse n (b1 ++ t ++ b2)) (GOk ds).
Proof. exact c39_padding. Qed.
Print Assumptions C39_padding.
Example C39_case : exists ds, denotes_text ds layout1 /\ denotes_text ds layout2 /\ ds <> [].
Proof. exact layouts. Qed.

(** ** C60 concatenated files *)
Theorem C60_concatenation : forall a b c ds es,
  greturns (fun n => parse n a) (GOk ds) -> greturns (fun n => parse n c) (GOk es) ->
  blank b -> ds <> [] \/ es <> [] \/ b = [] ->
  greturns (fun n => parse n (a ++ b ++ c)) (GOk (ds ++ es)).
Proof. exact c_concat. Qed.
Print Assumptions C60_concatenation.
Example C60_case : greturns (fun n => parse n sample_text) (GOk sample_ast) /\
  blank (chars " /* no definitions */ ").
Proof. exact (conj sample_returns comment_blank). Qed.

(** ** C61 programs with several versions: false when they are separated by white space *)
Theorem C61_versions_refuted :
  greturns (fun n => parse n (two_versions [])) (GOk two_versions_ast) /\
  ~ exists ds, greturns (fun n => parse n (two_versions (chars " "))) (GOk ds).
Proof. exact c61. Qed.
Print Assumptions C61_versions_refuted.
(** Missing: white space between versions. *)
Theorem C61_versions_partial : forall p t, good_program p -> written (w_program p) t [] ->
  greturns (fun n => parse n t) (GOk [DefProgram p]).
Proof. exact c61_partial. Qed.
Print Assumptions C61_versions_partial.
Example C61_case : greturns (fun n => parse n (two_versions [])) (GOk two_versions_ast).
Proof. exact two_versions_adjacent. Qed.

(** ** C62 the grammar is unambiguous *)
Theorem C62_unambiguous : forall t ds es, denotes_text ds t -> denotes_text es t -> ds = es.
Proof. exact c_unambiguous. Qed.
Print Assumptions C62_unambiguous.
Example C62_case : denotes_text sample_ast sample_text.
Proof. exact sample_denotes. Qed.
