(** Specification vocabulary for the work of the parser (C109). *)
From Verif Require Import Base Nom Ast SpecGrammar.
Local Open Scope string_scope.
Local Open Scope list_scope.

(** a definition with [d] structures written inside one another, in 12 * d + 18
    characters *)
Fixpoint nested (d : nat) : text :=
  match d with
  | O => chars "int"
  | S d => chars "struct {" ++ nested d ++ chars " a;}"
  end.
Definition nested_file (d : nat) : text := chars "struct A {" ++ nested d ++ chars " a;};".

Fixpoint nested_type (d : nat) : tyspec :=
  match d with
  | O => TsInt true
  | S d => TsStruct [DVariable (nested_type d) "a"]
  end.
Definition nested_defs (d : nat) : list definition :=
  [DefType (TdStruct "A" [DVariable (nested_type d) "a"])].

(** no structure or union is written where a type is used: no [struct] is
    followed by a brace and no [union] by the word [switch] *)
Definition apart (i : text) : Prop :=
  (forall a w b, spaces w -> i <> a ++ chars "struct" ++ w ++ chars "{" ++ b) /\
  (forall a w b, spaces w -> i <> a ++ chars "union" ++ w ++ chars "switch" ++ b).
