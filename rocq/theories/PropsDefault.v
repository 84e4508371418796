(** Properties C89 and C90: the default values of generated types. *)
From Verif Require Import Base SpecTypes RustTypes SerModel DeModel Nom Ast ParserModel SpecGrammar SpecParse SpecCase RustAst GenModel SpecGen SpecItems SpecXdl GenSem SpecWire SpecEmit
  DefaultModel SpecDefault DefaultItems WireLemmas ExamplesGen ExamplesWire ExamplesConv ExamplesEmit ExamplesRun ExamplesDefault.
Local Open Scope string_scope.
Local Open Scope list_scope.

(** The full claim is: the default function of every type of a file that
    compiles returns.  A struct with a field of its own type refutes it. *)
Theorem C89_default_refuted : exists ds f E x, good_spec ds /\ generated plain_config ds f E /\ compiles f /\
  diverges (fun n => default_of f n (YName x)).
Proof. exact endless_default. Qed.
Print Assumptions C89_default_refuted.

(** Missing from the full claim: structs with a field of their own type. *)
Theorem C89_default_partial cfg ds f E i : generated cfg ds f E -> compiles f -> self_free ds -> In i (fi_types f) ->
  exists v, returns (fun n => default_of f n (YName (item_name i))) (Ok v).
Proof. exact (@default_returns cfg ds f E i). Qed.
Print Assumptions C89_default_partial.
Example C89_default_case : forall fl checks, exists f E, generated (main_config fl checks) shapes f E /\ compiles f /\ self_free shapes.
Proof. exact shapes_whole. Qed.

(** Each struct of the excluded sort has a default function that calls itself
    without end. *)
Theorem C89_endless cfg ds f E x y l a : generated cfg ds f E -> compiles f ->
  first x (type_defs ds) (TdStruct y l) -> In (DVariable (TsIdent x) a) l ->
  exists y', camel_of x y' /\ diverges (fun n => default_of f n (YName y')).
Proof. exact (@default_endless cfg ds f E x y l a). Qed.
Print Assumptions C89_endless.
Example C89_endless_case : generated plain_config endless endless_file endless_env /\ compiles endless_file /\
  first "node" (type_defs endless) (TdStruct "node" [DVariable (TsIdent "node") "next"]).
Proof. exact endless_case. Qed.

(** The full claim is: the default of every type without a field of its own
    type can be written, and reading the bytes gives it back.  Three unions
    refute it: one is written and not read, one is read as another variant, and
    one is not written. *)
Theorem C90_unread_refuted : exists ds f E v bs e, good_spec ds /\ generated union_config ds f E /\ compiles f /\ self_free ds /\
  returns (fun n => default_of f n (YName "U")) (Ok v) /\ returns (fun n => to_bytes n E (TRef "U") v) (Ok bs) /\
  returns (fun n => from_bytes n E (TRef "U") bs) (Err e).
Proof. exact lone_unread. Qed.
Print Assumptions C90_unread_refuted.
Theorem C90_changed_refuted : exists ds f E v bs w, good_spec ds /\ generated union_config ds f E /\ compiles f /\ self_free ds /\
  returns (fun n => default_of f n (YName "U")) (Ok v) /\ returns (fun n => to_bytes n E (TRef "U") v) (Ok bs) /\
  returns (fun n => from_bytes n E (TRef "U") bs) (Ok w) /\ w <> v.
Proof. exact zero_changed. Qed.
Print Assumptions C90_changed_refuted.
Theorem C90_unwritten_refuted : exists ds f E v, good_spec ds /\ generated indexer_config ds f E /\ compiles f /\ self_free ds /\
  returns (fun n => default_of f n (YName "U")) (Ok v) /\ returns (fun n => to_bytes n E (TRef "U") v) Panic.
Proof. exact pick_unwritten. Qed.
Print Assumptions C90_unwritten_refuted.

(** Missing from the full claim: default arms with indexer output, unions whose
    default discriminant selects another arm with union output, and unions of
    more than 2^31 variants. *)
Theorem C90_default_partial cfg ds f E i : generated cfg ds f E -> compiles f -> self_free ds ->
  (forall u, In u (unions f) -> (zlen (un_variants u) <= 2 ^ 31)%Z) ->
  (union_impl_indexer cfg = true -> no_default_arms ds) ->
  (union_impl_union cfg = true -> supported_defs cfg ds /\ unions_start_well ds) -> In i (fi_types f) ->
  exists v bs, returns (fun n => default_of f n (YName (item_name i))) (Ok v) /\
    returns (fun n => to_bytes n E (TRef (item_name i)) v) (Ok bs) /\
    returns (fun n => from_bytes n E (TRef (item_name i)) bs) (Ok v).
Proof. exact (@default_round_trip cfg ds f E i). Qed.
Print Assumptions C90_default_partial.
Example C90_default_case : forall fl checks, let cfg := main_config fl checks in exists f E, generated cfg exact f E /\ compiles f /\ self_free exact /\
  (forall u, In u (unions f) -> (zlen (un_variants u) <= 2 ^ 31)%Z) /\ no_default_arms exact /\ supported_defs cfg exact /\ unions_start_well exact.
Proof. exact exact_case. Qed.
