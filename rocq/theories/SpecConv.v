(** Specification vocabulary: definitions for which the generated types hold
    nothing but values of the protocol. *)
From Verif Require Import Base SpecXdr Nom Ast SpecGrammar SpecParse SpecCase RustAst GenModel SpecGen SpecItems SpecXdl.
Local Open Scope string_scope.

(** - no number below the greatest one is missing, where the generator fills
      gaps with reserved variants;
    - case labels are values of the discriminant (RFC 4506, 4.15);
    - a default arm only where the default variant holds its discriminant. *)
Definition enum_exact (cfg : config) (ds : list definition) (l : list assign) : Prop :=
  enum_complement_index cfg = true -> dense ds l.
Definition union_exact (cfg : config) (ds : list definition) (u : ubody) : Prop :=
  match u with
  | UBody c specs dflt =>
      (forall t y v z, c = DVariable t y -> In v (labels specs) -> label_is ds v z ->
         exists d, xtype ds (union_impl_union cfg) t d /\ number_of d z) /\
      (union_impl_union cfg = false -> dflt = None) /\
      (union_complement_index cfg = true ->
         (forall v z, In v (labels specs) -> label_is ds v z -> 0 <= z < zlen (labels specs)) /\
         forall y, c = DVariable TsBool y -> zlen (labels specs) = 2)
  end.
Definition exact_defs (cfg : config) (ds : list definition) : Prop :=
  forall x td, In (x, td) (type_defs ds) ->
    match td with
    | TdEnum _ l => enum_exact cfg ds l
    | TdUnion _ u => union_exact cfg ds u
    | _ => True
    end.
