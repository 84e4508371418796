(** Property theorems about the inputs that generated programs accept
    (C104-C106). *)
From Verif Require Import Base RustTypes SpecXdr SpecTypes SerModel DeModel Nom Ast ParserModel SpecGrammar SpecParse
  CaseModel SpecCase RustAst GenModel SpecGen SpecItems SpecXdl GenSem SpecWire SpecEmit SpecConv SpecRead ReadModes
  ExamplesGen ExamplesConv ExamplesRead.
Local Open Scope string_scope.
Local Open Scope list_scope.

(** ** C104 the accepted inputs are the RFC encodings, but for four liberties:
    false for the gaps between the numbers of an enum *)
Theorem C104_gap_refuted : exists fl src ds f E y bs v, let cfg := main_config fl true in
  greturns (fun n => parse n src) (GOk ds) /\ definitions_ok cfg ds /\ enum_impl_indexer cfg = false /\ generated cfg ds f E /\ camel_of "e" y /\
  returns (fun n => from_bytes n E (TRef y) bs) (Ok v) /\
  ~ exists xval, xread (map def_without_max ds) (union_impl_union cfg) (enum_impl_indexer cfg) (TsIdent "e") xval bs.
Proof. exact hole_read. Qed.
Print Assumptions C104_gap_refuted.
(** Missing: definitions that are not exact, as in C78. *)
Theorem C104_accepted_partial : forall fl checks src ds, let cfg := main_config fl checks in
  greturns (fun n => parse n src) (GOk ds) -> definitions_ok cfg ds -> exact_defs cfg ds ->
  exists f E, generated cfg ds f E /\ compiles f /\
    forall x td, first x (type_defs ds) td -> is_typedef td = false ->
      (forall y l, td = TdEnum y l -> enum_impl_std_trait cfg = false \/ dense ds l) ->
      exists y, camel_of x y /\ forall bs v,
        returns (fun n => from_bytes n E (TRef y) bs) (Ok v) <->
        exists xval, xread (map def_without_max ds) (union_impl_union cfg) (enum_impl_indexer cfg) (TsIdent x) xval bs /\
                     speaks E (TRef y) v xval.
Proof. exact c104. Qed.
Print Assumptions C104_accepted_partial.
Example C104_case : exact_defs plain_config exact /\ definitions_ok plain_config exact /\
  (forall ix, xread (map def_without_max exact) true ix (TsIdent "rate") (XUnion (XEnum 1) (XUInt 7)) loose_rate) /\
  from_bytes 40 exact_uuenv (TRef "Rate") loose_rate = Ok (RVariant 1 [RBool true; RInt 7]) /\
  exists v, from_bytes 40 exact_env (TRef "Shape") loose_shape = Ok v.
Proof. exact (conj (exact_exact _ _) (conj (exact_ok _ _) (conj loose_read (conj loose_union (proj1 loose_shapes))))). Qed.

(** ** C105 programs generated with different flags accept the same inputs:
    false for the words of a discriminant and for unknown members *)
Theorem C105_union_refuted : exists src ds f f' E E' y bs v e, let cfg := main_config no_flags true in let cfg' := main_config only_union true in
  greturns (fun n => parse n src) (GOk ds) /\ definitions_ok cfg ds /\ definitions_ok cfg' ds /\ exact_defs cfg ds /\ exact_defs cfg' ds /\
  generated cfg ds f E /\ generated cfg' ds f' E' /\ camel_of "rate" y /\
  returns (fun n => from_bytes n E' (TRef y) bs) (Ok v) /\ returns (fun n => from_bytes n E (TRef y) bs) (Err e).
Proof. exact flags_union. Qed.
Print Assumptions C105_union_refuted.
Theorem C105_indexer_refuted : exists src ds f f' E E' y bs v e, let cfg := main_config no_flags true in let cfg' := main_config only_indexer true in
  greturns (fun n => parse n src) (GOk ds) /\ definitions_ok cfg ds /\ definitions_ok cfg' ds /\ exact_defs cfg ds /\ exact_defs cfg' ds /\
  generated cfg ds f E /\ generated cfg' ds f' E' /\ camel_of "color" y /\
  returns (fun n => from_bytes n E' (TRef y) bs) (Ok v) /\ returns (fun n => from_bytes n E (TRef y) bs) (Err e).
Proof. exact flags_indexer. Qed.
Print Assumptions C105_indexer_refuted.
(** What the program without the union and indexer modes accepts, the program
    with them accepts too, as the same value.  Missing: definitions that are not
    exact. *)
Theorem C105_stricter_partial : forall fl fl' checks checks' src ds f f' E E', let cfg := main_config fl checks in let cfg' := main_config fl' checks' in
  greturns (fun n => parse n src) (GOk ds) -> definitions_ok cfg ds -> definitions_ok cfg' ds -> exact_defs cfg ds -> exact_defs cfg' ds ->
  generated cfg ds f E -> generated cfg' ds f' E' ->
  (union_impl_union cfg = true -> union_impl_union cfg' = true) -> (enum_impl_indexer cfg = true -> enum_impl_indexer cfg' = true) ->
  forall x td, first x (type_defs ds) td -> is_typedef td = false ->
    (forall y l, td = TdEnum y l -> (enum_impl_std_trait cfg = false /\ enum_impl_std_trait cfg' = false) \/ dense ds l) ->
    exists y, camel_of x y /\ forall n bs v, from_bytes n E (TRef y) bs = Ok v ->
      exists v' xval, returns (fun n => from_bytes n E' (TRef y) bs) (Ok v') /\ speaks E (TRef y) v xval /\ speaks E' (TRef y) v' xval.
Proof. exact c105. Qed.
Print Assumptions C105_stricter_partial.
Example C105_case : exact_defs plain_config exact /\ exact_defs (main_config only_union true) exact /\ definitions_ok plain_config exact /\
  definitions_ok (main_config only_union true) exact /\ generated plain_config exact exact_file exact_env /\
  generated (main_config only_union true) exact exact_uufile exact_uuenv /\
  (exists v, from_bytes 40 exact_env (TRef "Shape") loose_shape = Ok v) /\ (exists v, from_bytes 40 exact_uuenv (TRef "Shape") loose_shape = Ok v) /\
  exists v, from_bytes 40 exact_ixenv (TRef "Shape") loose_shape = Ok v.
Proof.
  exact (conj (exact_exact _ _) (conj (exact_exact _ _) (conj (exact_ok _ _) (conj (exact_ok _ _) (conj exact_generated (conj exact_uugenerated loose_shapes)))))).
Qed.

(** ** C106 two programs that accept an input read the same value: false for
    the gaps between the numbers of an enum *)
Theorem C106_gap_refuted : exists fl fl' src ds f f' E E' y v bs v' bs',
  greturns (fun n => parse n src) (GOk ds) /\
  definitions_ok (main_config fl true) ds /\ definitions_ok (main_config fl' true) ds /\
  generated (main_config fl true) ds f E /\ generated (main_config fl' true) ds f' E' /\ camel_of "e" y /\
  returns (fun n => from_bytes n E (TRef y) bs) (Ok v) /\ returns (fun n => to_bytes n E (TRef y) v) (Ok bs) /\
  returns (fun n => from_bytes n E' (TRef y) bs) (Ok v') /\ returns (fun n => to_bytes n E' (TRef y) v') (Ok bs') /\
  bs' <> bs.
Proof. exact holex_witness. Qed.
Print Assumptions C106_gap_refuted.
(** Missing: definitions that are not exact. *)
Theorem C106_same_value_partial : forall fl fl' checks checks' src ds f f' E E', let cfg := main_config fl checks in let cfg' := main_config fl' checks' in
  greturns (fun n => parse n src) (GOk ds) -> definitions_ok cfg ds -> definitions_ok cfg' ds -> exact_defs cfg ds -> exact_defs cfg' ds ->
  generated cfg ds f E -> generated cfg' ds f' E' ->
  forall x td, first x (type_defs ds) td -> is_typedef td = false ->
    (forall y l, td = TdEnum y l -> (enum_impl_std_trait cfg = false /\ enum_impl_std_trait cfg' = false) \/ dense ds l) ->
    exists y, camel_of x y /\ forall n m bs v v', from_bytes n E (TRef y) bs = Ok v -> from_bytes m E' (TRef y) bs = Ok v' ->
      exists xval, speaks E (TRef y) v xval /\ speaks E' (TRef y) v' xval.
Proof. exact c106. Qed.
Print Assumptions C106_same_value_partial.
Example C106_case : exact_defs (main_config only_indexer true) exact /\ exact_defs (main_config only_union true) exact /\
  definitions_ok (main_config only_indexer true) exact /\ definitions_ok (main_config only_union true) exact /\
  generated (main_config only_indexer true) exact exact_ixfile exact_ixenv /\ generated (main_config only_union true) exact exact_uufile exact_uuenv /\
  (exists v, from_bytes 40 exact_env (TRef "Shape") loose_shape = Ok v) /\ (exists v, from_bytes 40 exact_uuenv (TRef "Shape") loose_shape = Ok v) /\
  exists v, from_bytes 40 exact_ixenv (TRef "Shape") loose_shape = Ok v.
Proof.
  exact (conj (exact_exact _ _) (conj (exact_exact _ _) (conj (exact_ok _ _) (conj (exact_ok _ _) (conj exact_ixgenerated (conj exact_uugenerated loose_shapes)))))).
Qed.
