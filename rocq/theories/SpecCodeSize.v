(** Specification vocabulary for the size of the generated code (C111). *)
From Verif Require Import Base RustTypes Nom Ast RustAst.
Local Open Scope string_scope.
Local Open Scope list_scope.
Local Open Scope Z_scope.

(** constants, typedefs, enum members, case labels, default arms and struct members of the
    definitions *)
Definition typedef_size (t : typedef) : Z :=
  match t with
  | TdDecl _ => 1
  | TdEnum _ l => zlen l
  | TdStruct _ l => zlen l
  | TdUnion _ (UBody _ specs dflt) =>
      zlen (flat_map (fun s => match s with CaseSpec vs _ => vs end) specs) +
      match dflt with Some _ => 1 | None => 0 end
  end.
Definition def_size (d : definition) : Z :=
  match d with DefConst _ => 1 | DefType t => typedef_size t | DefLine | DefProgram _ => 0 end.
Definition defs_size (ds : list definition) : Z := fold_right (fun d s => def_size d + s) 0 ds.

(** constants, type aliases, variants and fields of the generated code *)
Definition item_size (i : type_item) : Z :=
  match i with
  | IAlias _ _ => 1
  | IEnum e => zlen (en_values e)
  | IStruct s => zlen (st_fields s)
  | IUnion u => zlen (un_variants u)
  end.
Definition code_size (f : file) : Z := zlen (fi_consts f) + fold_right (fun i s => item_size i + s) 0 (fi_types f).
