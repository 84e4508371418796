(** Specification vocabulary: definitions appended to a protocol file. *)
From Verif Require Import Base Nom Ast SpecGrammar SpecParse RustAst GenModel SpecGen.
Local Open Scope string_scope.

(** the declarations of which a type is made *)
Definition parts (t : typedef) : list decl :=
  match t with
  | TdDecl d => [d]
  | TdEnum _ _ => []
  | TdStruct _ l => l
  | TdUnion _ (UBody c specs dflt) =>
      c :: map (fun s => match s with CaseSpec _ d => d end) specs ++ match dflt with Some d => [d] | None => [] end
  end%list.
Definition case_labels (t : typedef) : list value :=
  match t with TdUnion _ (UBody _ specs _) => labels specs | _ => [] end.

(** the names that the definitions define *)
Definition defines (ds : list definition) (x : string) : Prop :=
  In x (map fst (const_defs ds)) \/ In x (map fst (member_defs ds)) \/ In x (map fst (type_defs ds)).
(** the names that they use *)
Definition uses (ds : list definition) (x : string) : Prop :=
  (exists y, In (y, VIdent x) (const_defs ds)) \/ (exists y, In (y, VIdent x) (member_defs ds)) \/
  exists y t, In (y, t) (type_defs ds) /\
    (In (VIdent x) (case_labels t) \/ exists d, In d (parts t) /\ mentions d = Some (TsIdent x)).

(** [more] defines no name that occurs in [ds] *)
Definition unknown_names (ds more : list definition) : Prop :=
  forall x, defines more x -> ~ defines ds x /\ ~ uses ds x.
