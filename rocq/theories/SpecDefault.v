(** Specification vocabulary: the discriminant that a default value has. *)
From Verif Require Import Base Nom Ast ParserModel SpecGrammar SpecParse SpecGen SpecXdl.
Local Open Scope string_scope.

(** the number of the default of a discriminant type: zero, FALSE, or the
    least member of an enum *)
Inductive start_number (ds : list definition) : tyspec -> Z -> Prop :=
| sn_bool : start_number ds TsBool 0
| sn_uint t : is_uint ds t -> start_number ds t 0
| sn_enum e y l a z : first e (type_defs ds) (TdEnum y l) -> In a l -> value_is ds (as_value a) z ->
    (forall b w, In b l -> value_is ds (as_value b) w -> z <= w) -> start_number ds (TsIdent e) z.

(** of a union with a default arm that number selects the default arm, of one
    without it selects a case *)
Definition starts_well (ds : list definition) (u : ubody) : Prop :=
  match u with
  | UBody c specs dflt => exists t x z, c = DVariable t x /\ start_number ds t z /\
      (dflt = None <-> exists v, In v (labels specs) /\ label_is ds v z)
  end.
Definition unions_start_well (ds : list definition) : Prop :=
  forall x y u, In (x, TdUnion y u) (type_defs ds) -> starts_well ds u.
