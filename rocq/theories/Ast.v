(** The syntax tree of rpcgen/src/parser.rs (lines 26-433). *)
From Verif Require Import Base.

(** parser.rs:56-61; the digits as written, without "0x"/"0" *)
Inductive constant := Decimal (s : string) | Hex (s : string) | Octal (s : string).

(** parser.rs:340-344 *)
Inductive value := VConst (c : constant) | VIdent (x : string).

(** parser.rs:26-30 *)
Record assign := Assign { as_name : string; as_value : value }.

(** parser.rs:273-292 (TypeSpecifier), 121-131 (Declaration), 312-317
    (UnionBody), 41-45 (CaseSpec).  The one-field records EnumTypeSpec,
    StructTypeSpec, UnionTypeSpec and the boxes are left out. *)
Inductive tyspec :=
| TsInt (signed : bool)
| TsHyper (signed : bool)
| TsFloat | TsDouble | TsQuadruple | TsBool
| TsEnum (body : list assign)
| TsStruct (body : list decl)
| TsUnion (body : ubody)
| TsIdent (x : string)
| TsChar (signed : bool)
| TsShort (signed : bool)
| TsVoid
with decl :=
| DVariable (t : tyspec) (x : string)
| DFixedArray (t : tyspec) (x : string) (v : value)
| DVariableArray (t : tyspec) (x : string) (v : option value)
| DOpaqueFixed (x : string) (v : value)
| DOpaqueVariable (x : string) (v : option value)
| DString (x : string) (v : option value)
| DOption (t : tyspec) (x : string)
| DVoid
with ubody := UBody (cond : decl) (specs : list cspec) (dflt : option decl)
with cspec := CaseSpec (values : list value) (d : decl).

(** parser.rs:247-253 *)
Inductive typedef :=
| TdDecl (d : decl)
| TdEnum (x : string) (body : list assign)
| TdStruct (x : string) (body : list decl)
| TdUnion (x : string) (body : ubody).

(** parser.rs:416-422 *)
Record procedure := Procedure
  { pr_res : tyspec; pr_name : string; pr_req : tyspec; pr_value : value }.
(** parser.rs:399-404 *)
Record version := Version { vs_name : string; vs_procs : list procedure; vs_value : value }.
(** parser.rs:382-387 *)
Record program := Program { pg_name : string; pg_versions : list version; pg_value : value }.

(** parser.rs:197-205 *)
Inductive definition :=
| DefType (t : typedef)
| DefConst (a : assign)
| DefLine
| DefProgram (p : program).
