(** Property theorems about files that the Rust compiler rejects (C88). *)
From Verif Require Import Base RustTypes SpecTypes Nom Ast ParserModel SpecGrammar SpecParse CaseModel SpecCase RustAst GenModel SpecGen
  SpecItems SpecXdl GenSem SpecWire SpecEmit WireMain SpecReject EmitReject ExamplesGen ExamplesWire ExamplesEmit ExamplesReject.
Local Open Scope string_scope.
Local Open Scope list_scope.

(** ** C88 the code generated from a valid protocol file compiles: false *)
Theorem C88_accepted_refuted : exists ds, good_spec ds /\ forall fl checks, exists f,
  greturns (fun n => gen_code n (main_config fl checks) ds) (GOk f) /\ rejected f.
Proof. exact named_len_rejected. Qed.
Print Assumptions C88_accepted_refuted.
(** What holds instead: with [definitions_ok] none of the reasons applies; each
    of the theorems below is a construct of the language with which one does. *)
Theorem C88_accepted_partial : forall fl checks src ds, greturns (fun n => parse n src) (GOk ds) ->
  definitions_ok (main_config fl checks) ds ->
  exists f E, generated (main_config fl checks) ds f E /\ compiles f /\ ~ rejected f.
Proof. exact accepted. Qed.
Print Assumptions C88_accepted_partial.
Example C88_accepted_case : exists src, greturns (fun n => parse n src) (GOk shapes) /\ forall fl checks, definitions_ok (main_config fl checks) shapes.
Proof. exact shapes_accepted. Qed.

(** the reasons and the conditions of [compiles] exclude each other *)
Theorem C88_not_rejected : forall f E, file_env f = Some E -> compiles f -> ~ rejected f.
Proof. exact not_rejected. Qed.
Print Assumptions C88_not_rejected.

(** an array whose length is a name *)
Theorem C88_named_length : forall cfg ds f x y l t z c, greturns (fun n => gen_code n cfg ds) (GOk f) ->
  In (x, TdStruct y l) (type_defs ds) -> In (DFixedArray t z (VIdent c)) l -> rejected f.
Proof. exact named_length_g. Qed.
Print Assumptions C88_named_length.
Example C88_named_length_case : (good_spec named_len /\ emits named_len) /\
  exists x y l t z c, In (x, TdStruct y l) (type_defs named_len) /\ In (DFixedArray t z (VIdent c)) l.
Proof. exact (conj (conj named_len_good named_len_emits) named_len_in). Qed.

(** an array of more than 32 elements *)
Theorem C88_long_array : forall cfg ds f x y l d v z, good_spec ds -> greturns (fun n => gen_code n cfg ds) (GOk f) ->
  In (x, TdStruct y l) (type_defs ds) -> In d l ->
  (exists t w, d = DFixedArray t w v) \/ (exists w, d = DOpaqueFixed w v) -> value_is ds v z -> 32 < z -> rejected f.
Proof. exact long_array_g. Qed.
Print Assumptions C88_long_array.
Example C88_long_array_case : (good_spec handle /\ emits handle) /\
  exists x y l w v, In (x, TdStruct y l) (type_defs handle) /\ In (DOpaqueFixed w v) l /\ value_is handle v 64.
Proof. exact (conj (conj handle_good handle_emits) handle_in). Qed.

(** a constant whose value is a member of an enum *)
Theorem C88_member_const : forall cfg ds f x c, good_spec ds -> greturns (fun n => gen_code n cfg ds) (GOk f) ->
  In (x, VIdent c) (const_defs ds) -> ~ In c (map fst (const_defs ds)) -> rejected f.
Proof. exact member_const_g. Qed.
Print Assumptions C88_member_const.
Example C88_member_const_case : (good_spec member /\ emits member) /\
  In ("C", VIdent "M") (const_defs member) /\ ~ In "M" (map fst (const_defs member)).
Proof. exact (conj (conj member_good member_emits) member_in). Qed.

(** with the standard traits, an array or an option of an enum *)
Theorem C88_enum_container : forall cfg ds f x y l d e z m, good_spec ds -> NoDup (map fst (type_defs ds)) -> enum_impl_std_trait cfg = true ->
  greturns (fun n => gen_code n cfg ds) (GOk f) -> In (x, TdStruct y l) (type_defs ds) -> In d l ->
  In (e, TdEnum z m) (type_defs ds) -> mentions d = Some (TsIdent e) -> (forall w, d <> DVariable (TsIdent e) w) -> rejected f.
Proof. exact enum_container_g. Qed.
Print Assumptions C88_enum_container.
Example C88_enum_container_case : (good_spec palette /\ emits palette) /\ NoDup (map fst (type_defs palette)) /\
  exists x y l d e z m, In (x, TdStruct y l) (type_defs palette) /\ In d l /\
  In (e, TdEnum z m) (type_defs palette) /\ mentions d = Some (TsIdent e) /\ forall w, d <> DVariable (TsIdent e) w.
Proof. exact (conj (conj palette_good palette_emits) palette_in). Qed.

(** with the union mode, a discriminant of type [int] *)
Theorem C88_int_union : forall cfg ds f x y w specs dflt, good_spec ds -> union_impl_union cfg = true ->
  greturns (fun n => gen_code n cfg ds) (GOk f) ->
  In (x, TdUnion y (UBody (DVariable (TsInt true) w) specs dflt)) (type_defs ds) -> rejected f.
Proof. exact int_union_g. Qed.
Print Assumptions C88_int_union.
Example C88_int_union_case : (good_spec by_int /\ emits by_int) /\
  exists x y w specs dflt, In (x, TdUnion y (UBody (DVariable (TsInt true) w) specs dflt)) (type_defs by_int).
Proof. exact (conj (conj by_int_good by_int_emits) by_int_in). Qed.

(** a type that is not defined *)
Theorem C88_undefined_type : forall cfg ds f x y l d e c, greturns (fun n => gen_code n cfg ds) (GOk f) ->
  In (x, TdStruct y l) (type_defs ds) -> In d l -> mentions d = Some (TsIdent e) ->
  camel_of e c -> (forall z t, In (z, t) (type_defs ds) -> ~ camel_of z c) -> ~ In c taken -> rejected f.
Proof. exact undefined_type_g. Qed.
Print Assumptions C88_undefined_type.
Example C88_undefined_type_case : (good_spec other /\ emits other) /\
  exists x y l d, In (x, TdStruct y l) (type_defs other) /\ In d l /\ mentions d = Some (TsIdent "other") /\
  camel_of "other" "Other" /\ (forall z t, In (z, t) (type_defs other) -> ~ camel_of z "Other") /\ ~ In "Other" taken.
Proof. exact (conj (conj other_good other_emits) other_in). Qed.

(** a number as a case label *)
Theorem C88_number_label : forall cfg ds f x y t w specs dflt c, good_spec ds -> greturns (fun n => gen_code n cfg ds) (GOk f) ->
  In (x, TdUnion y (UBody (DVariable t w) specs dflt)) (type_defs ds) -> t <> TsBool -> In (VConst c) (labels specs) -> rejected f.
Proof. exact number_label. Qed.
Print Assumptions C88_number_label.
Example C88_number_label_case : good_spec numbered /\ forall fl checks, exists f,
  greturns (fun n => gen_code n (main_config fl checks) numbered) (GOk f) /\ rejected f.
Proof. exact (conj numbered_good numbered_rejected). Qed.
