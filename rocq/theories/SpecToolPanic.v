(** Specification vocabulary for C117: the interface files on which the generator panics. *)
From Verif Require Import Base Nom Ast ParserModel SpecGrammar SpecParse SpecCase CaseModel RustAst GenModel SpecGen SpecTranslate.
Local Open Scope string_scope.

Section With.
  Variables (cfg : config) (ds : list definition).

  (** a name in the type, after replacing typedefs, has no letter in front *)
  Inductive unnamed : tyspec -> Prop :=
  | un_name x : (forall d, ~ stands_in cfg ds x d) -> ~ camelable x -> unnamed (TsIdent x)
  | un_other x d t : stands_in cfg ds x d -> mentions d = Some t -> unnamed t -> unnamed (TsIdent x).
  Definition decl_unnamed (d : decl) : Prop := exists t, mentions d = Some t /\ unnamed t.

  (** members of structs *)
  Definition member_panics (d : decl) : Prop :=
    d = DVoid \/ decl_unnamed d \/
    expressible cfg ds d /\ exists x, declared d = Some x /\ In x ["self"; "Self"; "super"; "crate"].

  (** the labels of a union with their numbers and declarations, in the order of the file *)
  Definition arms_of (specs : list cspec) : list (decl * value) :=
    flat_map (fun s => match s with CaseSpec vs d => map (fun v => (d, v)) vs end) specs.
  Definition numbered (specs : list cspec) (l : list (Z * decl * value)) : Prop :=
    Forall2 (fun p q => snd (fst q) = fst p /\ snd q = snd p /\ number_is ds KU32 (snd q) (fst (fst q)) /\
                        0 <= fst (fst q) < 2 ^ 32) (arms_of specs) l.
  (** what the switch is on *)
  Definition switch_name_ok (t : tyspec) : Prop :=
    (typed cfg ds t \/ exists c, t = TsIdent c /\ refused cfg ds t /\ camelable c).
  Definition enum_name_ok (t : tyspec) : Prop :=
    forall c l, t = TsIdent c -> In (c, TdEnum c l) (type_defs ds) -> camelable c.
  Definition label_fine (t : tyspec) (q : Z * decl * value) : Prop :=
    label_ok (snd q) /\ switch_name_ok t /\ expressible cfg ds (snd (fst q)) /\ enum_name_ok t /\
    (overflow_checks cfg = true -> fst (fst q) <> 2 ^ 32 - 1).
  Definition label_panics (t : tyspec) (q : Z * decl * value) : Prop :=
    ~ label_ok (snd q) \/
    unnamed t \/ (exists c, t = TsIdent c /\ refused cfg ds t /\ ~ camelable c) \/
    switch_name_ok t /\ decl_unnamed (snd (fst q)) \/
    switch_name_ok t /\ expressible cfg ds (snd (fst q)) /\
      (~ enum_name_ok t \/ overflow_checks cfg = true /\ fst (fst q) = 2 ^ 32 - 1).
  (** [q] is reached: the labels with smaller numbers, and those with the same
      number that come earlier, are fine *)
  Definition reached (t : tyspec) (l : list (Z * decl * value)) (q : Z * decl * value) : Prop :=
    exists a b, l = (a ++ q :: b)%list /\
      (forall r, In r a -> fst (fst r) <= fst (fst q) -> label_fine t r) /\
      (forall r, In r b -> fst (fst r) < fst (fst q) -> label_fine t r).

  Definition arm_fine (v : string) (specs : list cspec) : Prop :=
    forall d, arm_of (VIdent v) specs d -> expressible cfg ds d.
  Definition arm_panics (v : string) (specs : list cspec) : Prop :=
    exists d, arm_of (VIdent v) specs d /\ decl_unnamed d.
  Definition default_panics (o : option decl) : Prop := exists d, o = Some d /\ decl_unnamed d.

  Definition switch_panics (t : tyspec) (specs : list cspec) (dflt : option decl) : Prop :=
    match t with
    | TsInt _ | TsIdent _ =>
        exists l, numbered specs l /\
          ((exists q, reached t l q /\ label_panics t q) \/
           Forall (label_fine t) l /\ default_panics dflt)
    | TsBool =>
        arm_panics "FALSE" specs \/
        arm_fine "FALSE" specs /\ arm_panics "TRUE" specs \/
        arm_fine "FALSE" specs /\ arm_fine "TRUE" specs /\
          (default_panics dflt \/
           dflt = None /\ ~ In (VIdent "TRUE") (labels specs) /\ ~ In (VIdent "FALSE") (labels specs))
    | _ => False
    end.
  Definition union_panics (u : ubody) : Prop :=
    match u with UBody c specs dflt => exists t x, c = DVariable t x /\ switch_panics t specs dflt end.

  Definition type_panics (p : string * typedef) : Prop :=
    match snd p with
    | TdDecl d => remove_typedef cfg = false /\
        (decl_unnamed d \/ expressible cfg ds d /\ ~ is_opaque d /\ ~ camelable (fst p))
    | TdEnum _ l =>
        (exists zs, Forall2 (fun a z => number_is ds KI32 (as_value a) z /\ - 2 ^ 31 <= z < 2 ^ 31) l zs) /\
        ~ (camelable (fst p) /\ enum_ok cfg ds l)
    | TdStruct _ l =>
        (exists a d b, l = (a ++ d :: b)%list /\ Forall (member_ok cfg ds) a /\ member_panics d) \/
        Forall (member_ok cfg ds) l /\ ~ camelable (fst p)
    | TdUnion _ u => ~ camelable (fst p) \/ union_panics u
    end.

  (** the first definition that is not translated panics *)
  Definition panics_on : Prop :=
    Forall (fun p => constant_ok (snd p)) (const_defs ds) /\
    exists a p b, type_defs ds = (a ++ p :: b)%list /\ Forall (type_ok cfg ds) a /\ type_panics p.
End With.
