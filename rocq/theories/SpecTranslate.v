(** Specification vocabulary for C115: the interface files that can be translated. *)
From Verif Require Import Base Nom Ast ParserModel SpecGrammar SpecParse SpecCase CaseModel RustAst GenModel SpecGen.
Local Open Scope string_scope.

(** the number that [v] gives where numbers of the kind [k] are expected, and the
    error that it gives.  A name stands for the first constant of that name or, if
    there is none or its value gives an error, for the first enum member of that
    name.  A constant whose value cannot be had is reported as unknown. *)
Inductive number_is (ds : list definition) (k : intkind) : value -> Z -> Prop :=
| ni_number c z : stands_for c z -> fits k z -> number_is ds k (VConst c) z
| ni_const x v z : first x (const_defs ds) v -> number_is ds k v z -> number_is ds k (VIdent x) z
| ni_member x v z : ~ In x (map fst (const_defs ds)) -> first x (member_defs ds) v ->
    number_is ds k v z -> number_is ds k (VIdent x) z
| ni_again x c e v z : first x (const_defs ds) c -> number_error ds k c e -> first x (member_defs ds) v ->
    number_is ds k v z -> number_is ds k (VIdent x) z
with number_error (ds : list definition) (k : intkind) : value -> gen_error -> Prop :=
| ne_number c z : stands_for c z -> ~ fits k z -> number_error ds k (VConst c) GParse
| ne_unknown x : ~ In x (map fst (const_defs ds)) -> ~ In x (map fst (member_defs ds)) ->
    number_error ds k (VIdent x) (GNotFoundIdentifier x)
| ne_const x c e : first x (const_defs ds) c -> number_error ds k c e -> ~ In x (map fst (member_defs ds)) ->
    number_error ds k (VIdent x) (GNotFoundIdentifier x)
| ne_member x v e : ~ In x (map fst (const_defs ds)) -> first x (member_defs ds) v ->
    number_error ds k v e -> number_error ds k (VIdent x) e
| ne_again x c e v e' : first x (const_defs ds) c -> number_error ds k c e -> first x (member_defs ds) v ->
    number_error ds k v e' -> number_error ds k (VIdent x) e'.

(** types with a counterpart in Rust *)
Inductive has_rust : tyspec -> Prop :=
| hr_int s : has_rust (TsInt s)
| hr_hyper s : has_rust (TsHyper s)
| hr_float : has_rust TsFloat
| hr_double : has_rust TsDouble
| hr_bool : has_rust TsBool
| hr_char s : has_rust (TsChar s)
| hr_short s : has_rust (TsShort s).
(** types without one: quadruple, and bodies written in place *)
Inductive no_rust : tyspec -> Prop :=
| nr_quadruple : no_rust TsQuadruple
| nr_enum l : no_rust (TsEnum l)
| nr_struct l : no_rust (TsStruct l)
| nr_union u : no_rust (TsUnion u).

(** the length of an array: a name, or a number that an address can hold *)
Definition size_ok (v : value) : Prop :=
  match v with
  | VConst c => exists z, stands_for c z /\ 0 <= z < 2 ^ 64
  | VIdent _ => True
  end.
Definition size_of (d : decl) : option value :=
  match d with DFixedArray _ _ v | DOpaqueFixed _ v => Some v | _ => None end.
Definition sizes_ok (d : decl) : Prop := match size_of d with Some v => size_ok v | None => True end.

Section With.
  Variables (cfg : config) (ds : list definition).

  (** [x] is to be replaced with what the typedef [d] says *)
  Definition stands_in (x : string) (d : decl) : Prop :=
    remove_typedef cfg = true /\ first x (type_defs ds) (TdDecl d).

  (** the type can be written down in Rust *)
  Inductive typed : tyspec -> Prop :=
  | ty_rust t : has_rust t -> typed t
  | ty_name x : (forall d, ~ stands_in x d) -> camelable x -> typed (TsIdent x)
  | ty_plain x d : stands_in x d -> mentions d = None -> sizes_ok d -> typed (TsIdent x)
  | ty_other x d t : stands_in x d -> mentions d = Some t -> typed t -> sizes_ok d -> typed (TsIdent x).
  Definition expressible (d : decl) : Prop :=
    sizes_ok d /\ forall t, mentions d = Some t -> typed t.

  (** it cannot, because what it stands for has no counterpart or has a length
      that is too large *)
  Inductive refused : tyspec -> Prop :=
  | rf_no_rust t : no_rust t -> refused t
  | rf_plain x d : stands_in x d -> mentions d = None -> ~ sizes_ok d -> refused (TsIdent x)
  | rf_other x d t : stands_in x d -> mentions d = Some t -> refused t -> refused (TsIdent x)
  | rf_size x d t : stands_in x d -> mentions d = Some t -> typed t -> ~ sizes_ok d -> refused (TsIdent x).

  (** constants *)
  Definition constant_ok (v : value) : Prop := size_ok v.

  (** enums: [zs] are the numbers of the members *)
  Definition numbers_for_enum (zs : list Z) : Prop :=
    Forall (fun z => - 2 ^ 31 <= z < 2 ^ 31) zs /\
    (overflow_checks cfg = true -> ~ In (2 ^ 31 - 1) zs) /\
    (enum_complement_index cfg = true ->
       (count_occ Z.eq_dec zs (2 ^ 31 - 1)%Z <= 1)%nat /\
       (* below zero there is no gap to fill *)
       forall z w, In z zs -> In w zs -> z < w -> z + 1 < 0 -> In (z + 1) zs).
  Definition enum_ok (l : list assign) : Prop :=
    Forall (fun a => camelable (as_name a)) l /\
    exists zs, Forall2 (fun a z => number_is ds KI32 (as_value a) z) l zs /\ numbers_for_enum zs.

  (** structs *)
  Definition member_ok (d : decl) : Prop :=
    expressible d /\ exists x, declared d = Some x /\ ~ In x ["self"; "Self"; "super"; "crate"].

  (** unions *)
  Definition number_for_union (z : Z) : Prop :=
    0 <= z < 2 ^ 32 /\ (overflow_checks cfg = true -> z <> 2 ^ 32 - 1).
  Definition arm_ok (s : cspec) : Prop :=
    match s with
    | CaseSpec vs d =>
        expressible d /\
        Forall (fun v => label_ok v /\ exists z, number_is ds KU32 v z /\ number_for_union z) vs
    end.
  (** the first arm with the label [v] *)
  Definition arm_of (v : value) (specs : list cspec) (d : decl) : Prop :=
    exists a vs b, specs = (a ++ CaseSpec vs d :: b)%list /\ In v vs /\ ~ In v (labels a).
  Definition switch_ok (t : tyspec) (specs : list cspec) (dflt : option decl) : Prop :=
    match t with
    | TsInt _ => Forall arm_ok specs
    | TsIdent c => Forall arm_ok specs /\ (typed t \/ refused t /\ camelable c) /\
                   (forall l, In (c, TdEnum c l) (type_defs ds) -> camelable c)
    | TsBool =>
        (forall v d, v = VIdent "TRUE" \/ v = VIdent "FALSE" -> arm_of v specs d -> expressible d) /\
        (dflt = None -> In (VIdent "TRUE") (labels specs) \/ In (VIdent "FALSE") (labels specs))
    | _ => False
    end.
  Definition union_body_ok (u : ubody) : Prop :=
    match u with
    | UBody c specs dflt =>
        (exists t x, c = DVariable t x /\ switch_ok t specs dflt) /\
        (forall d, dflt = Some d -> expressible d)
    end.

  Definition is_opaque (d : decl) : Prop :=
    match d with DOpaqueFixed _ _ | DOpaqueVariable _ _ => True | _ => False end.

  Definition type_ok (p : string * typedef) : Prop :=
    match snd p with
    | TdDecl d => remove_typedef cfg = true \/
                  camelable (fst p) /\ expressible d /\ ~ is_opaque d
    | TdEnum _ l => camelable (fst p) /\ enum_ok l
    | TdStruct _ l => camelable (fst p) /\ Forall member_ok l
    | TdUnion _ u => camelable (fst p) /\ union_body_ok u
    end.

  Definition translatable : Prop :=
    Forall (fun p => constant_ok (snd p)) (const_defs ds) /\ Forall type_ok (type_defs ds).
End With.

(** ** C116 *)
(** no enum has members on both sides of a gap of negative numbers, or two
    members with the largest number *)
Definition no_negative_gap (ds : list definition) : Prop :=
  forall x y l zs, In (x, TdEnum y l) (type_defs ds) -> Forall2 (fun a z => number_is ds KI32 (as_value a) z) l zs ->
    (count_occ Z.eq_dec zs (2 ^ 31 - 1)%Z <= 1)%nat /\
    forall z w, In z zs -> In w zs -> z < w -> z + 1 < 0 -> In (z + 1) zs.
