(** Specification vocabulary: parts of a protocol file that do, or do not,
    influence the generated code. *)
From Verif Require Import Base Nom Ast ParserModel SpecGrammar SpecParse SpecCase SpecGen RustAst GenModel GenSem.
Local Open Scope string_scope.

(** ** Declared maximum sizes *)
Definition without_max (d : decl) : decl :=
  match d with
  | DVariableArray t x _ => DVariableArray t x None
  | DOpaqueVariable x _ => DOpaqueVariable x None
  | DString x _ => DString x None
  | _ => d
  end.
Definition union_without_max (u : ubody) : ubody :=
  match u with
  | UBody c specs dflt =>
      UBody c (map (fun s => match s with CaseSpec vs d => CaseSpec vs (without_max d) end) specs)
            (option_map without_max dflt)
  end.
Definition type_without_max (t : typedef) : typedef :=
  match t with
  | TdDecl d => TdDecl (without_max d)
  | TdEnum x l => TdEnum x l
  | TdStruct x l => TdStruct x (map without_max l)
  | TdUnion x u => TdUnion x (union_without_max u)
  end.
Definition def_without_max (d : definition) : definition :=
  match d with DefType t => DefType (type_without_max t) | _ => d end.

(** ** Definitions that generate nothing: programs and lines beginning with % *)
Definition generates (d : definition) : bool :=
  match d with DefConst _ | DefType _ => true | DefLine | DefProgram _ => false end.

(** ** No name is defined twice (RFC 4506, 6.4) *)
Definition no_redefinition (ds : list definition) : Prop :=
  NoDup (map fst (const_defs ds)) /\ NoDup (map fst (type_defs ds)) /\ NoDup (map fst (member_defs ds)).

(** ** The items of a kind, in order *)
Definition enums (f : file) : list enum_item :=
  flat_map (fun i => match i with IEnum e => [e] | _ => [] end) (fi_types f).
Definition structs (f : file) : list struct_item :=
  flat_map (fun i => match i with IStruct s => [s] | _ => [] end) (fi_types f).
Definition unions (f : file) : list union_item :=
  flat_map (fun i => match i with IUnion u => [u] | _ => [] end) (fi_types f).
Definition aliases (f : file) : list (string * rty) :=
  flat_map (fun i => match i with IAlias x t => [(x, t)] | _ => [] end) (fi_types f).

(** ** The number of a case label, by the type of the discriminant *)
Definition case_number (ds : list definition) (c : decl) (v : value) (z : Z) : Prop :=
  match c with
  | DVariable TsBool _ => v = VIdent "FALSE" /\ z = 0 \/ v = VIdent "TRUE" /\ z = 1
  | _ => value_is ds v z
  end.

(** one of the variants has that name and that many fields *)
Definition names_variant (vs : list variant) (dv : vtoken * nat) : Prop :=
  exists va, In va vs /\ va_name va = fst dv /\ length (va_tys va) = snd dv.

(** ** Structs that contain themselves other than optionally or in a
    variable-length array *)
Definition self_free (ds : list definition) : Prop :=
  forall x y l d, In (x, TdStruct y l) (type_defs ds) -> In d l -> mentions d = Some (TsIdent x) ->
    (exists z, d = DOption (TsIdent x) z) \/ (exists z m, d = DVariableArray (TsIdent x) z m).

(** ** Unions without default arm *)
Definition no_default_arms (ds : list definition) : Prop :=
  forall x y c specs dflt, In (x, TdUnion y (UBody c specs dflt)) (type_defs ds) -> dflt = None.

(** ** Types of finite size: no item contains itself, except behind Box and Vec *)
Definition finite_size (f : file) : Prop :=
  exists rank : string -> nat, forall i y, In i (fi_types f) -> In y (item_inline i) ->
    (rank y < rank (item_name i))%nat.
