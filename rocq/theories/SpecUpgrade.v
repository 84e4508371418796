(** Specification vocabulary: a later version of a protocol file. *)
From Verif Require Import Base Nom Ast SpecGrammar SpecParse SpecCase RustAst GenModel SpecGen SpecItems SpecXdl.

Section Upgrade.
  (** [R x x']: the type [x] of the old file is called [x'] in the new one *)
  Variables (old new : list definition) (R : string -> string -> Prop).

  (** declared maximum sizes may grow or disappear *)
  Definition wider (max max' : option value) : Prop :=
    max' = None \/ exists v v' m m', max = Some v /\ max' = Some v' /\ value_is old v m /\ value_is new v' m' /\ m <= m'.

  (** types given by keywords *)
  Definition by_keyword (t : tyspec) : Prop :=
    match t with TsEnum _ | TsStruct _ | TsUnion _ | TsIdent _ => False | _ => True end.

  (** the declared thing may get another name; lengths of fixed-length arrays
      stay what they are; typedefs may be introduced or replaced by what they
      stand for *)
  Inductive grown : decl -> decl -> Prop :=
  | gr_variable t t' x x' : grown_spec t t' -> grown (DVariable t x) (DVariable t' x')
  | gr_array t t' x x' v v' : grown_spec t t' -> (forall z, value_is old v z -> value_is new v' z) ->
      grown (DFixedArray t x v) (DFixedArray t' x' v')
  | gr_vararray t t' x x' max max' : grown_spec t t' -> wider max max' -> grown (DVariableArray t x max) (DVariableArray t' x' max')
  | gr_opaque x x' v v' : (forall z, value_is old v z -> value_is new v' z) -> grown (DOpaqueFixed x v) (DOpaqueFixed x' v')
  | gr_varopaque x x' max max' : wider max max' -> grown (DOpaqueVariable x max) (DOpaqueVariable x' max')
  | gr_string x x' max max' : wider max max' -> grown (DString x max) (DString x' max')
  | gr_option t t' x x' : grown_spec t t' -> grown (DOption t x) (DOption t' x')
  | gr_void : grown DVoid DVoid
  | gr_inline n x d d' : first n (type_defs old) (TdDecl d) -> grown d d' -> grown (DVariable (TsIdent n) x) d'
  | gr_typedef n x d d' : first n (type_defs new) (TdDecl d') -> grown d d' -> grown d (DVariable (TsIdent n) x)
  with grown_spec : tyspec -> tyspec -> Prop :=
  | gs_keyword t : by_keyword t -> grown_spec t t
  | gs_name x x' : R x x' -> grown_spec (TsIdent x) (TsIdent x')
  | gs_inline n d t' x : first n (type_defs old) (TdDecl d) -> grown d (DVariable t' x) -> grown_spec (TsIdent n) t'
  | gs_typedef n d t x : first n (type_defs new) (TdDecl d) -> grown (DVariable t x) d -> grown_spec t (TsIdent n).

  (** no number of the enum is lost *)
  Definition grown_enum (l l' : list assign) : Prop :=
    forall a z, In a l -> value_is old (as_value a) z -> exists a', In a' l' /\ value_is new (as_value a') z.

  (** the discriminant has the type it had; every case of the old union is a
      case of the new one; numbers that selected the old default arm select the
      new one *)
  Definition grown_union (u u' : ubody) : Prop :=
    match u, u' with
    | UBody c specs dflt, UBody c' specs' dflt' =>
        (exists t t' x x', c = DVariable t x /\ c' = DVariable t' x' /\ grown_spec t t') /\
        (forall vs arm v z, In (CaseSpec vs arm) specs -> In v vs -> label_is old v z ->
           exists vs' arm' v', In (CaseSpec vs' arm') specs' /\ In v' vs' /\ label_is new v' z /\ grown arm arm') /\
        (forall arm, dflt = Some arm -> exists arm', dflt' = Some arm' /\ grown arm arm' /\
           forall v' z, In v' (labels specs') -> label_is new v' z -> exists v, In v (labels specs) /\ label_is old v z)
    end.

  Definition grown_type (t t' : typedef) : Prop :=
    match t, t' with
    | TdDecl d, TdDecl d' => grown d d'
    | TdEnum _ l, TdEnum _ l' => grown_enum l l'
    | TdStruct _ l, TdStruct _ l' => Forall2 grown l l'
    | TdUnion _ u, TdUnion _ u' => grown_union u u'
    | _, _ => False
    end.

  (** types, members, cases and constants may be added *)
  Definition upgrade : Prop :=
    forall x x', R x x' -> exists t t', first x (type_defs old) t /\ first x' (type_defs new) t' /\ grown_type t t'.

  (** no enum has numbers that it did not have *)
  Definition no_new_members : Prop :=
    forall x x' y y' l l' a' z, R x x' -> first x (type_defs old) (TdEnum y l) -> first x' (type_defs new) (TdEnum y' l') ->
      In a' l' -> value_is new (as_value a') z -> exists a, In a l /\ value_is old (as_value a) z.
End Upgrade.

Scheme grown_mind := Minimality for grown Sort Prop
  with grown_spec_mind := Minimality for grown_spec Sort Prop.
Combined Scheme grown_grown_spec_ind from grown_mind, grown_spec_mind.
