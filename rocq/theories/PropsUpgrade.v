(** Property theorems about later versions of a protocol file (C101-C103). *)
From Verif Require Import Base RustTypes SpecXdr SpecTypes SerModel DeModel Nom Ast ParserModel SpecGrammar SpecParse
  CaseModel SpecCase RustAst GenModel SpecGen SpecItems SpecXdl GenSem SpecWire SpecEmit SpecConv SpecUpgrade SpecAppend UpgradeProofs AppendProofs
  MisreadProofs ExamplesGen ExamplesUpgrade ExamplesAppend ExamplesMisread.
Local Open Scope string_scope.
Local Open Scope list_scope.

(** ** C101 programs of an extended protocol understand those of the old one *)
Theorem C101_values : forall fl fl' checks checks' src src' old new R,
  let cfg := main_config fl checks in let cfg' := main_config fl' checks' in
  greturns (fun n => parse n src) (GOk old) -> definitions_ok cfg old ->
  greturns (fun n => parse n src') (GOk new) -> definitions_ok cfg' new -> upgrade old new R ->
  exists f f' E E', generated cfg old f E /\ compiles f /\ generated cfg' new f' E' /\ compiles f' /\
    forall x x' td td' dm xval, R x x' -> first x (type_defs old) td -> is_typedef td = false -> first x' (type_defs new) td' ->
      (forall y l, td = TdEnum y l -> enum_impl_std_trait cfg = false \/ dense old l) ->
      (forall y l, td' = TdEnum y l -> enum_impl_std_trait cfg' = false \/ dense new l) ->
      (dm = true -> union_impl_union cfg = true /\ union_impl_union cfg' = true) ->
      xtype old dm (TsIdent x) xval ->
      exists y y' v v', camel_of x y /\ camel_of x' y' /\ speaks E (TRef y) v xval /\ speaks E' (TRef y') v' xval.
Proof. exact upgrade_speaks. Qed.
Print Assumptions C101_values.
Theorem C101_decoded : forall fl fl' checks checks' src src' old new R f f' E E',
  let cfg := main_config fl checks in let cfg' := main_config fl' checks' in
  greturns (fun n => parse n src) (GOk old) -> definitions_ok cfg old -> exact_defs cfg old ->
  greturns (fun n => parse n src') (GOk new) -> definitions_ok cfg' new -> upgrade old new R ->
  generated cfg old f E -> generated cfg' new f' E' -> (union_impl_union cfg = true -> union_impl_union cfg' = true) ->
  forall x x' td td', R x x' -> first x (type_defs old) td -> is_typedef td = false -> first x' (type_defs new) td' ->
    (forall y l, td = TdEnum y l -> enum_impl_std_trait cfg = false \/ dense old l) ->
    (forall y l, td' = TdEnum y l -> enum_impl_std_trait cfg' = false \/ dense new l) ->
    exists y y', camel_of x y /\ camel_of x' y' /\ forall n bs v, from_bytes n E (TRef y) bs = Ok v ->
      exists bs' v', returns (fun n => to_bytes n E (TRef y) v) (Ok bs') /\
        returns (fun n => from_bytes n E' (TRef y') bs') (Ok v') /\
        returns (fun n => to_bytes n E' (TRef y') v') (Ok bs') /\
        returns (fun n => from_bytes n E (TRef y) bs') (Ok v).
Proof. exact upgrade_decoded. Qed.
Print Assumptions C101_decoded.
Example C101_case_files : greturns (fun n => parse n early_text) (GOk early) /\ greturns (fun n => parse n later_text) (GOk later) /\
  upgrade early later called /\ forall fl checks, definitions_ok (main_config fl checks) early /\ exact_defs (main_config fl checks) early /\
    definitions_ok (main_config fl checks) later.
Proof.
  exact (conj early_parses (conj later_parses (conj early_later (fun fl checks =>
    conj (early_ok fl checks) (conj (early_exact fl checks) (later_ok fl checks)))))).
Qed.
Example C101_case_value : forall dm, xtype early dm (TsIdent "call") early_call.
Proof. exact early_call_value. Qed.
Example C101_case_code : generated plain_config early early_file early_env /\ generated union_config later later_file later_env /\
  (exists v, from_bytes 40 early_env (TRef "Call") call_bytes = Ok v) /\ (exists v, from_bytes 40 later_env (TRef "Request") call_bytes = Ok v).
Proof. exact (conj early_generated (conj later_generated (conj early_decodes later_decodes))). Qed.

(** ** C102 appended definitions leave the code of the others as it is: false
    when an enum called String is appended *)
Theorem C102_append_refuted : exists fl src src' ds more f f' s s' fd, greturns (fun n => parse n src) (GOk ds) /\ greturns (fun n => parse n src') (GOk more) /\
  unknown_names ds more /\ greturns (fun n => rpcgen n fl true src) (GOk f) /\ greturns (fun n => rpcgen n fl true (src ++ src')) (GOk f') /\
  structs f = [s] /\ structs f' = [s'] /\ In fd (st_fields s) /\ ~ In fd (st_fields s').
Proof. exact strange_witness. Qed.
Print Assumptions C102_append_refuted.
(** Missing: appended types called String. *)
Theorem C102_append_partial : forall fl checks src src' ds more f', greturns (fun n => parse n src) (GOk ds) -> greturns (fun n => parse n src') (GOk more) ->
  unknown_names ds more -> ~ In "String" (map fst (type_defs more)) ->
  greturns (fun n => rpcgen n fl checks (src ++ src')) (GOk f') ->
  exists f cs ts, greturns (fun n => rpcgen n fl checks src) (GOk f) /\
    fi_uses f' = fi_uses f /\ fi_consts f' = fi_consts f ++ cs /\ fi_types f' = fi_types f ++ ts.
Proof. exact append_text. Qed.
Print Assumptions C102_append_partial.
Example C102_case : greturns (fun n => parse n early_text) (GOk early) /\ greturns (fun n => parse n extra_text) (GOk extra) /\
  unknown_names early extra /\ ~ In "String" (map fst (type_defs extra)) /\
  forall fl checks, exists f, greturns (fun n => rpcgen n fl checks (early_text ++ extra_text)) (GOk f).
Proof. exact (conj early_parses (conj extra_parses (conj extra_unknown (conj extra_string extra_runs)))). Qed.

(** ** C103 an old program never mistakes a message of an extended protocol:
    false in the indexer mode and where numbers had been skipped *)
Theorem C103_indexer_refuted : exists fl src src' old new R f E x x' y xval bs v bs', let cfg := main_config fl true in
  greturns (fun n => parse n src) (GOk old) /\ definitions_ok cfg old /\ exact_defs cfg old /\ self_free old /\
  greturns (fun n => parse n src') (GOk new) /\ definitions_ok cfg new /\ exact_defs cfg new /\ upgrade old new R /\ generated cfg old f E /\
  R x x' /\ camel_of x y /\ (forall dm, xtype new dm (TsIdent x') xval) /\ rfc xval bs /\
  returns (fun n => from_bytes n E (TRef y) bs) (Ok v) /\ returns (fun n => to_bytes n E (TRef y) v) (Ok bs') /\ bs' <> bs.
Proof. exact misread_indexer. Qed.
Print Assumptions C103_indexer_refuted.
Theorem C103_gap_refuted : exists fl src src' old new R f E x x' y xval bs v, let cfg := main_config fl true in
  greturns (fun n => parse n src) (GOk old) /\ definitions_ok cfg old /\ self_free old /\ enum_impl_indexer cfg = false /\ enum_impl_std_trait cfg = false /\
  greturns (fun n => parse n src') (GOk new) /\ definitions_ok cfg new /\ upgrade old new R /\ generated cfg old f E /\
  R x x' /\ camel_of x y /\ (forall dm, xtype new dm (TsIdent x') xval) /\ rfc xval bs /\
  returns (fun n => from_bytes n E (TRef y) bs) (Ok v) /\ forall dm, ~ xtype old dm (TsIdent x) xval.
Proof. exact misread_gap. Qed.
Print Assumptions C103_gap_refuted.
(** Missing: definitions that are not exact, as in C78, and in the indexer mode
    enums with new members. *)
Theorem C103_read_partial : forall fl fl' checks checks' src src' old new R f E,
  let cfg := main_config fl checks in let cfg' := main_config fl' checks' in
  greturns (fun n => parse n src) (GOk old) -> definitions_ok cfg old -> exact_defs cfg old ->
  greturns (fun n => parse n src') (GOk new) -> definitions_ok cfg' new -> upgrade old new R ->
  (enum_impl_indexer cfg = true -> no_new_members old new R) -> generated cfg old f E ->
  forall x x' td, R x x' -> first x (type_defs old) td -> is_typedef td = false ->
    (forall y l, td = TdEnum y l -> enum_impl_std_trait cfg = false \/ dense old l) ->
    exists y, camel_of x y /\ forall dm xval bs n v, xtype (map def_without_max new) dm (TsIdent x') xval -> rfc xval bs ->
      from_bytes n E (TRef y) bs = Ok v ->
      xtype (map def_without_max old) (union_impl_union cfg) (TsIdent x) xval /\ speaks E (TRef y) v xval.
Proof. exact upgrade_reads. Qed.
Print Assumptions C103_read_partial.
Theorem C103_answer_partial : forall fl fl' checks checks' src src' old new R f E,
  let cfg := main_config fl checks in let cfg' := main_config fl' checks' in
  greturns (fun n => parse n src) (GOk old) -> definitions_ok cfg old -> exact_defs cfg old -> self_free old ->
  greturns (fun n => parse n src') (GOk new) -> definitions_ok cfg' new -> upgrade old new R ->
  (enum_impl_indexer cfg = true -> no_new_members old new R) -> generated cfg old f E ->
  forall x x' td, R x x' -> first x (type_defs old) td -> is_typedef td = false ->
    (forall y l, td = TdEnum y l -> enum_impl_std_trait cfg = false \/ dense old l) ->
    exists y, camel_of x y /\ forall dm xval bs, xtype (map def_without_max new) dm (TsIdent x') xval -> rfc xval bs ->
      (xtype (map def_without_max old) (union_impl_union cfg) (TsIdent x) xval /\ exists v, speaks E (TRef y) v xval) \/
      (~ xtype (map def_without_max old) (union_impl_union cfg) (TsIdent x) xval /\
       exists e, returns (fun n => from_bytes n E (TRef y) bs) (Err e)).
Proof. exact upgrade_answers. Qed.
Print Assumptions C103_answer_partial.
Theorem C103_programs_partial : forall fl fl' checks checks' src src' old new R f f' E E',
  let cfg := main_config fl checks in let cfg' := main_config fl' checks' in
  greturns (fun n => parse n src) (GOk old) -> definitions_ok cfg old -> exact_defs cfg old ->
  greturns (fun n => parse n src') (GOk new) -> definitions_ok cfg' new -> exact_defs cfg' new -> upgrade old new R ->
  (enum_impl_indexer cfg = true -> no_new_members old new R) -> generated cfg old f E -> generated cfg' new f' E' ->
  forall x x' td td', R x x' -> first x (type_defs old) td -> is_typedef td = false -> first x' (type_defs new) td' ->
    (forall y l, td = TdEnum y l -> enum_impl_std_trait cfg = false \/ dense old l) ->
    (forall y l, td' = TdEnum y l -> enum_impl_std_trait cfg' = false \/ dense new l) ->
    exists y y', camel_of x y /\ camel_of x' y' /\ forall n m bs0 bs v v', from_bytes m E' (TRef y') bs0 = Ok v' ->
      returns (fun n => to_bytes n E' (TRef y') v') (Ok bs) -> from_bytes n E (TRef y) bs = Ok v ->
      exists xval, speaks E' (TRef y') v' xval /\ speaks E (TRef y) v xval.
Proof. exact upgrade_hears. Qed.
Print Assumptions C103_programs_partial.
Example C103_case : enum_impl_indexer plain_config = false /\ exact_defs plain_config early /\ self_free early /\ exact_defs union_config later /\
  generated plain_config early early_file early_env /\
  (forall dm, xtype later dm (TsIdent "request") early_call) /\ (exists v, from_bytes 40 early_env (TRef "Call") call_bytes = Ok v) /\
  (forall dm, xtype later dm (TsIdent "request") (XUnion (XEnum 2) (XHyper 7))) /\ rfc (XUnion (XEnum 2) (XHyper 7)) drop_bytes /\
  exists e, from_bytes 40 early_env (TRef "Call") drop_bytes = Err e.
Proof.
  exact (conj eq_refl (conj (early_exact _ _) (conj early_free (conj (later_exact _ _) (conj early_generated (conj later_call_value (conj early_decodes
    (conj later_drop_value (conj drop_rfc early_refuses))))))))).
Qed.
(** two items of a list that become two others *)
Example C103_mixed : from_bytes 20 closed_gap_env (TRef "M") items_bytes = Ok (RSeq [RSeq [RVariant 1 [RInt 0]; RVariant 2 []]]) /\
  from_bytes 20 gapped_env (TRef "M") items_bytes = Ok (RSeq [RSeq [RVariant 1 []; RVariant 0 [RInt 2]]]).
Proof. exact items_mixed. Qed.
