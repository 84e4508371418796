(** Specification vocabulary for the code generator: what the definitions of
    an XDR file say, independently of how the generator computes it. *)
From Verif Require Import Base Nom Ast ParserModel SpecGrammar SpecParse SpecCase.
Local Open Scope string_scope.

(** ** The names a file defines, in order *)
Definition const_of (d : definition) : list (string * value) :=
  match d with DefConst a => [(as_name a, as_value a)] | _ => [] end.
Definition const_defs (ds : list definition) : list (string * value) := flat_map const_of ds.

Definition declared (d : decl) : option string :=
  match d with
  | DVariable _ x | DFixedArray _ x _ | DVariableArray _ x _ | DOpaqueFixed x _
  | DOpaqueVariable x _ | DString x _ | DOption _ x => Some x
  | DVoid => None
  end.
Definition typedef_name (t : typedef) : option string :=
  match t with TdDecl d => declared d | TdEnum x _ | TdStruct x _ | TdUnion x _ => Some x end.
Definition type_of (d : definition) : list (string * typedef) :=
  match d with
  | DefType t => match typedef_name t with Some x => [(x, t)] | None => [] end
  | _ => []
  end.
Definition type_defs (ds : list definition) : list (string * typedef) := flat_map type_of ds.

Definition members (t : typedef) : list (string * value) :=
  match t with TdEnum _ l => map (fun a => (as_name a, as_value a)) l | _ => [] end.
Definition member_defs (ds : list definition) : list (string * value) :=
  flat_map (fun p => members (snd p)) (type_defs ds).

(** the first entry for [x] is [v] *)
Definition first {A} (x : string) (l : list (string * A)) (v : A) : Prop :=
  exists a b, l = (a ++ (x, v) :: b)%list /\ ~ In x (map fst a).

(** ** Values (RFC 4506, 6.2 and 6.4): a number, or the name of a constant or of
    an enum member *)
Inductive value_is (ds : list definition) : value -> Z -> Prop :=
| vi_number c z : stands_for c z -> value_is ds (VConst c) z
| vi_const x v z : first x (const_defs ds) v -> value_is ds v z -> value_is ds (VIdent x) z
| vi_member x v z : ~ In x (map fst (const_defs ds)) -> first x (member_defs ds) v ->
    value_is ds v z -> value_is ds (VIdent x) z.

(** no name is a constant and an enum member (RFC 4506, 6.4: one scope) *)
Definition one_scope (ds : list definition) : Prop :=
  forall x, In x (map fst (const_defs ds)) -> ~ In x (map fst (member_defs ds)).

(** ** Definitions that do not depend on themselves *)
(** what a declaration mentions *)
Definition mentions (d : decl) : option tyspec :=
  match d with
  | DVariable t _ | DFixedArray t _ _ | DVariableArray t _ _ | DOption t _ => Some t
  | _ => None
  end.
Definition well_founded_names (ds : list definition) : Prop :=
  exists rank : string -> nat,
    (forall x y, In (x, VIdent y) (const_defs ds) \/ In (x, VIdent y) (member_defs ds) ->
       (rank y < rank x)%nat) /\
    (forall x d y, In (x, TdDecl d) (type_defs ds) -> mentions d = Some (TsIdent y) ->
       (rank y < rank x)%nat).

(** ** Names and numbers that the generator can handle *)
(** something remains without underscores, and it begins with a letter *)
Definition camelable (x : string) : Prop := starts is_alpha (letters (chars x)).

Definition decl_names_ok (d : decl) : Prop :=
  match mentions d with Some (TsIdent y) => camelable y | _ => True end.
Definition label_ok (v : value) : Prop :=
  match v with VIdent y => camelable y | VConst _ => True end.
Definition case_ok (s : cspec) : Prop :=
  match s with CaseSpec vs d => Forall label_ok vs /\ decl_names_ok d end.
Definition field_ok (d : decl) : Prop :=
  decl_names_ok d /\
  exists x, declared d = Some x /\ ~ In x ["self"; "Self"; "super"; "crate"].
Definition labels (specs : list cspec) : list value :=
  flat_map (fun s => match s with CaseSpec vs _ => vs end) specs.
Definition union_ok (u : ubody) : Prop :=
  match u with
  | UBody c specs dflt =>
      decl_names_ok c /\ Forall case_ok specs /\
      match dflt with Some d => decl_names_ok d | None => True end /\
      (mentions c = Some TsBool -> dflt = None ->
       exists v, In v (labels specs) /\ (v = VIdent "TRUE" \/ v = VIdent "FALSE"))
  end.
Definition names_ok (ds : list definition) : Prop :=
  Forall (fun p : string * typedef =>
    camelable (fst p) /\
    match snd p with
    | TdDecl d => decl_names_ok d
    | TdEnum _ l => Forall (fun a => camelable (as_name a)) l
    | TdStruct _ l => Forall field_ok l
    | TdUnion _ u => union_ok u
    end) (type_defs ds).

(** [P] holds of the values of all enum members, [Q] of all case labels of
    unions that are not over bool *)
Definition numbers_ok (P Q : Z -> Prop) (ds : list definition) : Prop :=
  Forall (fun p : string * typedef =>
    match snd p with
    | TdEnum _ l => Forall (fun a => forall z, value_is ds (as_value a) z -> P z) l
    | TdUnion _ (UBody c specs _) =>
        mentions c <> Some TsBool -> Forall (fun v => forall z, value_is ds v z -> Q z) (labels specs)
    | _ => True
    end) (type_defs ds).
