(** Specification vocabulary for the work of the generator (C110). *)
From Verif Require Import Base Nom Ast SpecGen.
Local Open Scope string_scope.
Local Open Scope list_scope.

(** the names that stand for numbers, and those that are both a constant and a member of
    an enum *)
Definition value_names (ds : list definition) : list string :=
  nodup string_dec (map fst (const_defs ds) ++ map fst (member_defs ds)).
Definition double_names (ds : list definition) : list string :=
  filter (fun x => existsb (String.eqb x) (map fst (const_defs ds)) &&
                   existsb (String.eqb x) (map fst (member_defs ds))) (value_names ds).

(** the numbers that the generated code needs: members of enums, and cases of unions *)
Definition uses (t : typedef) : nat :=
  match t with
  | TdEnum _ l => length l
  | TdUnion _ (UBody _ specs _) =>
      list_sum (map (fun s => match s with CaseSpec vs _ => length vs end) specs)
  | TdDecl _ | TdStruct _ _ => 0
  end.
Definition value_uses (ds : list definition) : nat := list_sum (map (fun p => uses (snd p)) (type_defs ds)).

(** the numbers defined or used *)
Definition value_count (ds : list definition) : nat := length (const_defs ds) + value_uses ds.

(** the names a, aa, aaa, ... *)
Fixpoint long_name (i : nat) : string := match i with O => "a" | S i => String "a" (long_name i) end.

(** each of the first [d] names stands for the next one, both as a constant and as a member
    of an enum; the last one is not defined *)
Definition ladder (d : nat) : list definition :=
  map (fun i => DefConst (Assign (long_name i) (VIdent (long_name (S i))))) (seq 0 d) ++
  [DefType (TdEnum "e" (map (fun i => Assign (long_name i) (VIdent (long_name (S i)))) (seq 0 d)))].
