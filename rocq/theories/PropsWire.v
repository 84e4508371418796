(** Property theorems about the wire format of generated code (C43-C50, C56). *)
From Verif Require Import Base RustTypes SpecXdr SpecTypes SerModel DeModel Nom Ast ParserModel SpecGrammar SpecParse
  CaseModel SpecCase RustAst GenModel SpecGen SpecItems SpecXdl GenSem SpecWire WireLemmas WireEnums WireTypedef
  ExamplesGen ExamplesWire.
Local Open Scope string_scope.
Local Open Scope list_scope.

(** ** C43 default mode: members are written as their values: false for
    negative values *)
Theorem C43_members_refuted : exists ds f E, good_spec ds /\ generated plain_config ds f E /\ compiles f /\
  xtype ds false (TsIdent "e") (XEnum (-1)) /\ mute E (TRef "E") (XEnum (-1)).
Proof. exact (ex_intro _ neg (ex_intro _ neg_file (ex_intro _ neg_env
  (conj neg_good (conj neg_generated (conj neg_compiles (conj neg_value neg_mute))))))). Qed.
Print Assumptions C43_members_refuted.
(** Missing: enums with a negative member. *)
Theorem C43_members_partial : forall cfg ds f x y l, good_spec ds -> one_scope ds ->
  enum_impl_std_trait cfg = false ->
  greturns (fun n => gen_code n cfg ds) (GOk f) -> compiles f ->
  (forall a z, In a l -> value_is ds (as_value a) z -> enum_complement_index cfg = true -> 0 <= z) ->
  In (x, TdEnum y l) (type_defs ds) ->
  exists e T, In (IEnum e) (fi_types f) /\ camel_of x (en_name e) /\ enum_sem e = Some T /\
    (forall a, In a l -> exists z, value_is ds (as_value a) z) /\
    forall E a z, In a l -> value_is ds (as_value a) z ->
      exists i n, nth_error (enum_names e) i = Some n /\ camel_of (as_name a) n /\ speaks E T (RVariant i []) (XEnum z).
Proof. exact enum_speaks. Qed.
Print Assumptions C43_members_partial.
Example C43_case : good_spec pick /\ generated plain_config pick pick_file pick_env /\ compiles pick_file.
Proof. exact (conj pick_good (conj pick_generated pick_compiles)). Qed.

(** ** C44 std-trait mode: as_ref and try_from *)
Theorem C44_traits : forall cfg ds f x y l, good_spec ds -> one_scope ds ->
  enum_impl_std_trait cfg = true -> enum_impl_indexer cfg = false ->
  greturns (fun n => gen_code n cfg ds) (GOk f) -> compiles f ->
  In (x, TdEnum y l) (type_defs ds) ->
  exists e asr tf, In (IEnum e) (fi_types f) /\ camel_of x (en_name e) /\ en_as_ref e = Some asr /\ en_try_from e = Some tf /\
    (forall a, In a l -> exists z, value_is ds (as_value a) z) /\
    (forall a z, In a l -> value_is ds (as_value a) z -> exists n, camel_of (as_name a) n /\ In n (enum_names e) /\
       assoc String.eqb n asr = Some z /\ assoc Z.eqb z tf = Some n) /\
    (forall z, (forall a, In a l -> ~ value_is ds (as_value a) z) -> assoc Z.eqb z tf = None) /\
    exists T, signed_sem e = Some T /\
      (forall E a z, In a l -> value_is ds (as_value a) z ->
         exists i n, nth_error (enum_names e) i = Some n /\ camel_of (as_name a) n /\ speaks E T (RVariant i []) (XEnum z)) /\
      (forall E z, (forall a, In a l -> ~ value_is ds (as_value a) z) -> rejects E T z).
Proof. exact c44. Qed.
Print Assumptions C44_traits.
Example C44_case : good_spec gap /\ generated std_config gap gap_file gap_env /\ compiles gap_file.
Proof. exact (conj gap_good (conj gap_generated gap_compiles)). Qed.

(** ** C45 indexer mode: words of no member are rejected: false *)
Theorem C45_indexer_refuted : exists ds f E x l z bs v, good_spec ds /\ generated indexer_config ds f E /\ compiles f /\
  In (x, TdEnum x l) (type_defs ds) /\ (forall a, In a l -> ~ value_is ds (as_value a) z) /\ signed 4 z bs /\
  returns (fun n => from_bytes n E (TRef "E") bs) (Ok v).
Proof. exact c45_refuted. Qed.
Print Assumptions C45_indexer_refuted.
(** Missing: other words are not rejected (see the next theorem). *)
Theorem C45_indexer_partial : forall cfg ds f x y l, good_spec ds -> one_scope ds ->
  enum_impl_std_trait cfg = false -> enum_impl_indexer cfg = true ->
  greturns (fun n => gen_code n cfg ds) (GOk f) -> compiles f ->
  In (x, TdEnum y l) (type_defs ds) ->
  exists e T, In (IEnum e) (fi_types f) /\ camel_of x (en_name e) /\ enum_sem e = Some T /\
    (forall a, In a l -> exists z, value_is ds (as_value a) z) /\
    forall E a z, In a l -> value_is ds (as_value a) z ->
      exists i n, nth_error (enum_names e) i = Some n /\ camel_of (as_name a) n /\ speaks E T (RVariant i []) (XEnum z).
Proof. exact c45. Qed.
Print Assumptions C45_indexer_partial.
(** Every other word is read as the member of the lowest value. *)
Theorem C45_unknown_words : forall cfg ds f x y l, good_spec ds -> one_scope ds ->
  enum_impl_std_trait cfg = false -> enum_impl_indexer cfg = true ->
  greturns (fun n => gen_code n cfg ds) (GOk f) -> compiles f ->
  In (x, TdEnum y l) (type_defs ds) ->
  exists e T, In (IEnum e) (fi_types f) /\ camel_of x (en_name e) /\ enum_sem e = Some T /\
    exists i n a z, nth_error (enum_names e) i = Some n /\ camel_of (as_name a) n /\ In a l /\ value_is ds (as_value a) z /\
      (forall b w, In b l -> value_is ds (as_value b) w -> z <= w) /\
      forall E w bs, signed 4 w bs -> (forall b, In b l -> ~ value_is ds (as_value b) w) ->
        returns (fun n => from_bytes n E T bs) (Ok (RVariant i [])).
Proof. exact c45_unknown. Qed.
Print Assumptions C45_unknown_words.
Example C45_case : good_spec pick /\ generated indexer_config pick pick_ix_file pick_ix_env /\ compiles pick_ix_file.
Proof. exact (conj pick_good (conj pick_ix_generated pick_ix_compiles)). Qed.

(** ** C46 default mode: arms get their discriminant: false for default arms *)
Theorem C46_arms_refuted : exists ds f E, good_spec ds /\ generated plain_config ds f E /\ compiles f /\
  xtype ds true (TsIdent "u") (XUnion (XEnum 2) XVoid) /\ mute E (TRef "U") (XUnion (XEnum 2) XVoid).
Proof. exact (ex_intro _ pick (ex_intro _ pick_file (ex_intro _ pick_env
  (conj pick_good (conj pick_generated (conj pick_compiles (conj pick_value pick_mute))))))). Qed.
Print Assumptions C46_arms_refuted.
(** Missing: values of the default arm; definitions that are not supported. *)
Theorem C46_arms_partial : forall cfg ds f E x y t nm specs dflt, supported_defs cfg ds -> generated cfg ds f E ->
  first x (type_defs ds) (TdUnion y (UBody (DVariable t nm) specs dflt)) ->
  union_complement_index cfg = true ->
  exists u, In (IUnion u) (fi_types f) /\ camel_of x (un_name u) /\
    forall d z vs lb arm a, xtype ds false t d -> number_of d z -> xdecl ds false arm a ->
      In (CaseSpec vs arm) specs -> In lb vs -> label_is ds lb z ->
      exists i vv n, variant_at u i n /\ arm_for ds false specs dflt z arm n /\
        speaks E (TRef (un_name u)) (RVariant i vv) (XUnion d a).
Proof. exact c46. Qed.
Print Assumptions C46_arms_partial.
Example C46_case : forall checks, supported_defs (main_config (Flags false false false false) checks) shapes /\
  union_complement_index (main_config (Flags false false false false) checks) = true.
Proof. exact (fun checks => conj (shapes_supported _ checks) eq_refl). Qed.

(** ** C47 indexer mode: unions: false for default arms, which are read but
    cannot be written *)
Theorem C47_indexer_refuted : exists ds f E bs v, good_spec ds /\ generated indexer_config ds f E /\ compiles f /\
  xtype ds true (TsIdent "u") (XUnion (XEnum 2) XVoid) /\ mute E (TRef "U") (XUnion (XEnum 2) XVoid) /\
  rfc (XUnion (XEnum 2) XVoid) bs /\ returns (fun n => from_bytes n E (TRef "U") bs) (Ok v) /\
  returns (fun n => to_bytes n E (TRef "U") v) Panic.
Proof. exact c47_refuted. Qed.
Print Assumptions C47_indexer_refuted.
(** Missing: values of the default arm; definitions that are not supported. *)
Theorem C47_indexer_partial : forall cfg ds f E x y t nm specs dflt, supported_defs cfg ds -> generated cfg ds f E ->
  first x (type_defs ds) (TdUnion y (UBody (DVariable t nm) specs dflt)) ->
  union_impl_indexer cfg = true ->
  exists u, In (IUnion u) (fi_types f) /\ camel_of x (un_name u) /\
    forall d z vs lb arm a, xtype ds false t d -> number_of d z -> xdecl ds false arm a ->
      In (CaseSpec vs arm) specs -> In lb vs -> label_is ds lb z ->
      exists i vv n, variant_at u i n /\ arm_for ds false specs dflt z arm n /\
        speaks E (TRef (un_name u)) (RVariant i vv) (XUnion d a).
Proof. exact c47. Qed.
Print Assumptions C47_indexer_partial.
Example C47_case : forall checks, supported_defs (main_config (Flags false true false false) checks) shapes /\
  union_impl_indexer (main_config (Flags false true false false) checks) = true.
Proof. exact (fun checks => conj (shapes_supported _ checks) eq_refl). Qed.

(** ** C48 union mode: false for arms of fixed-length opaque data *)
Theorem C48_union_refuted : exists ds f E x, good_spec ds /\ generated union_config ds f E /\ compiles f /\
  xtype ds true (TsIdent "u") (XUnion (XEnum 0) (XFOpaque x)) /\ mute E (TRef "U") (XUnion (XEnum 0) (XFOpaque x)).
Proof. exact (ex_intro _ fixedarm (ex_intro _ fixedarm_file (ex_intro _ fixedarm_env (ex_intro _ _
  (conj fixedarm_good (conj fixedarm_generated (conj fixedarm_compiles (conj fixedarm_value fixedarm_mute)))))))). Qed.
Print Assumptions C48_union_refuted.
(** Missing: definitions that are not supported. *)
Theorem C48_union_partial : forall cfg ds f E x y t nm specs dflt, supported_defs cfg ds -> generated cfg ds f E ->
  first x (type_defs ds) (TdUnion y (UBody (DVariable t nm) specs dflt)) ->
  union_impl_union cfg = true ->
  exists u, In (IUnion u) (fi_types f) /\ camel_of x (un_name u) /\
    forall d z arm a, xtype ds true t d -> number_of d z -> xdecl ds true arm a ->
      (exists vs v, In (CaseSpec vs arm) specs /\ In v vs /\ label_is ds v z) \/
      dflt = Some arm /\ (forall v, In v (labels specs) -> ~ label_is ds v z) ->
      exists i vs n, variant_at u i n /\ arm_for ds true specs dflt z arm n /\
        speaks E (TRef (un_name u)) (RVariant i vs) (XUnion d a).
Proof. exact c48. Qed.
Print Assumptions C48_union_partial.
Example C48_case : forall checks, supported_defs (main_config (Flags true false false true) checks) shapes /\
  union_impl_union (main_config (Flags true false false true) checks) = true.
Proof. exact (fun checks => conj (shapes_supported _ checks) eq_refl). Qed.

(** ** C49 struct layout: false for enums behind typedefs in std-trait mode *)
Theorem C49_struct_refuted : exists ds f E, good_spec ds /\ generated std_config ds f E /\ compiles f /\
  xtype ds false (TsIdent "via") (XStruct [XEnum 5]) /\ mute E (TRef "Via") (XStruct [XEnum 5]).
Proof. exact (ex_intro _ gap (ex_intro _ gap_file (ex_intro _ gap_env
  (conj gap_good (conj gap_generated (conj gap_compiles (conj (gap_value (or_intror eq_refl)) gap_mute))))))). Qed.
Print Assumptions C49_struct_refuted.
(** Missing: definitions that are not supported. *)
Theorem C49_struct_partial : forall cfg ds f E x y l, supported_defs cfg ds -> generated cfg ds f E ->
  first x (type_defs ds) (TdStruct y l) ->
  exists s ts, In (IStruct s) (fi_types f) /\ camel_of x (st_name s) /\ lookup E (st_name s) = Some (TStruct ts) /\
    Forall2 (fun d q => (exists n, declared d = Some n /\ snaked (chars n) (chars (fst q))) /\
               forall xval, xdecl ds (union_impl_union cfg) d xval -> exists v, speaks E (snd q) v xval) l ts /\
    (forall xs, xfields ds (union_impl_union cfg) l xs -> exists vs, speaks E (TRef (st_name s)) (RSeq vs) (XStruct xs)).
Proof. exact (fun cfg ds f E x y l S G => @w_struct cfg ds S f E G x y l). Qed.
Print Assumptions C49_struct_partial.
Example C49_case : forall fl checks, supported_defs (main_config fl checks) shapes /\
  xtype shapes (use_union fl) (TsIdent "point") (pt 6 XNone).
Proof. exact (fun fl checks => conj (shapes_supported fl checks) (shapes_point_small (use_union fl))). Qed.

(** ** C50 typedefs: false for enums in std-trait mode *)
Theorem C50_typedef_refuted : exists ds f E v, good_spec ds /\ generated std_config ds f E /\ compiles f /\
  In (DefType (TdStruct "direct" [DVariable (TsIdent "e") "f"])) ds /\
  In (DefType (TdStruct "via" [DVariable (TsIdent "t") "f"])) ds /\
  expands ds (DVariable (TsIdent "t") "f") (DVariable (TsIdent "e") "f") /\
  speaks E (TRef "Direct") v (XStruct [XEnum 5]) /\ mute E (TRef "Via") (XStruct [XEnum 5]).
Proof. exact c50_refuted. Qed.
Print Assumptions C50_typedef_refuted.
(** Missing: typedef names of enums in std-trait mode. *)
Theorem C50_typedef_partial : forall cfg ds f E x1 y1 l1 i1 d1 x2 y2 l2 i2 d2, remove_typedef cfg = true -> good_spec ds ->
  NoDup (map fst (type_defs ds)) -> generated cfg ds f E -> compiles f ->
  In (x1, TdStruct y1 l1) (type_defs ds) -> nth_error l1 i1 = Some d1 ->
  In (x2, TdStruct y2 l2) (type_defs ds) -> nth_error l2 i2 = Some d2 ->
  expands ds d1 d2 ->
  (enum_impl_std_trait cfg = true -> forall e n y l, d2 = DVariable (TsIdent e) n -> In (e, TdEnum y l) (type_defs ds) ->
     exists m, d1 = DVariable (TsIdent e) m) ->
  exists n1 ts1 a1 T1 n2 ts2 a2 T2,
    camel_of x1 n1 /\ lookup E n1 = Some (TStruct ts1) /\ nth_error ts1 i1 = Some (a1, T1) /\
    camel_of x2 n2 /\ lookup E n2 = Some (TStruct ts2) /\ nth_error ts2 i2 = Some (a2, T2) /\
    unboxed T1 = unboxed T2.
Proof. exact c50. Qed.
Print Assumptions C50_typedef_partial.
Example C50_case : good_spec chain /\ NoDup (map fst (type_defs chain)) /\ generated std_config chain chain_file chain_env /\
  compiles chain_file /\ expands chain (DVariable (TsIdent "key") "k") (DOpaqueFixed "f" (dec "4")).
Proof. exact (conj chain_good (conj chain_types (conj chain_generated (conj chain_compiles chain_expands)))). Qed.

(** ** C56 generated code speaks the protocol it was generated from *)
Theorem C56_end_to_end : forall fl checks src ds, let cfg := main_config fl checks in
  greturns (fun n => parse n src) (GOk ds) -> definitions_ok cfg ds ->
  exists f E, generated cfg ds f E /\ compiles f /\
    forall x td xval, first x (type_defs ds) td -> is_typedef td = false ->
      (forall y l, td = TdEnum y l -> enum_impl_std_trait cfg = false \/ dense ds l) ->
      xtype ds (union_impl_union cfg) (TsIdent x) xval -> exists y v, camel_of x y /\ speaks E (TRef y) v xval.
Proof. exact c56. Qed.
Print Assumptions C56_end_to_end.
Example C56_case : forall fl checks, greturns (fun n => parse n shapes_text) (GOk shapes) /\
  definitions_ok (main_config fl checks) shapes /\ xtype shapes (use_union fl) (TsIdent "shape") shape_value.
Proof. exact (fun fl checks => conj shapes_parses (conj (shapes_ok fl checks) (shapes_value (use_union fl)))). Qed.
