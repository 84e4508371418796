(** Specification vocabulary: a standard text for every definition list, and
    the definition lists that can be written at all. *)
From Verif Require Import Base Nom Ast SpecGrammar.
Local Open Scope string_scope.

(** ** A standard text: single blanks, no comments.  [tight] says that the piece
    before is "char" or "short" used as a name, after which no blank may come. *)
Definition soft (x : string) : bool := existsb (String.eqb x) soft_words.
Definition standard (tight : bool) (p : piece) : string :=
  match p with
  | Lit s | Name s | TypeName s | Word s => s
  | Unsigned => "unsigned int"
  | Sp0 => if tight then "" else " "
  | Sp1 | Bl => " "
  | Line => String "%" (String lf "")
  end.
Fixpoint render (tight : bool) (l : list piece) : text :=
  match l with
  | [] => []
  | p :: l => (chars (standard tight p) ++ render (match p with TypeName x => soft x | _ => false end) l)%list
  end.
Definition print (ds : list definition) : text := render false (w_spec ds).

(** ** Lists that can be written: "char" and "short" as names of types only
    where no white space has to follow *)
Definition hard (t : tyspec) : Prop := match t with TsIdent x => ~ In x soft_words | _ => True end.

Fixpoint spaced_type (t : tyspec) : Prop :=
  match t with
  | TsStruct l => fold_right (fun d P => spaced_decl d /\ P) True l
  | TsUnion u => spaced_union u
  | _ => True
  end
with spaced_decl (d : decl) : Prop :=
  match d with
  | DVariable t _ | DFixedArray t _ _ | DVariableArray t _ _ => hard t /\ spaced_type t
  | DOption t _ => spaced_type t
  | _ => True
  end
with spaced_union (u : ubody) : Prop :=
  match u with
  | UBody c specs dflt =>
      spaced_decl c /\ fold_right (fun s P => spaced_case s /\ P) True specs /\
      match dflt with Some d => spaced_decl d | None => True end
  end
with spaced_case (s : cspec) : Prop :=
  match s with CaseSpec _ d => spaced_decl d end.

Definition spaced_definition (d : definition) : Prop :=
  match d with
  | DefType (TdDecl d) => spaced_decl d
  | DefType (TdEnum _ _) | DefConst _ | DefLine => True
  | DefType (TdStruct _ l) => Forall spaced_decl l
  | DefType (TdUnion _ u) => spaced_union u
  | DefProgram p =>
      Forall (fun v => Forall (fun q => hard (pr_res q) /\ spaced_type (pr_res q) /\ spaced_type (pr_req q)) (vs_procs v))
             (pg_versions p)
  end.
Definition writable (ds : list definition) : Prop := good_spec ds /\ Forall spaced_definition ds.
