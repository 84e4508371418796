(** Specification vocabulary: names that lead round in a circle (C41). *)
From Verif Require Import Base Nom Ast SpecGrammar SpecParse RustAst GenModel SpecGen.
Local Open Scope string_scope.

(** from the value of [x] one comes from name to name without end *)
Definition circular (ds : list definition) (x : string) : Prop :=
  exists P : string -> Prop, P x /\ forall y, P y -> exists z, P z /\
    (first y (const_defs ds) (VIdent z) \/
     ~ In y (map fst (const_defs ds)) /\ first y (member_defs ds) (VIdent z)).
(** the same for typedefs *)
Definition circular_type (ds : list definition) (x : string) : Prop :=
  exists P : string -> Prop, P x /\ forall y, P y -> exists d z, P z /\
    first y (type_defs ds) (TdDecl d) /\ mentions d = Some (TsIdent z).

(** values and types for which code has to be emitted *)
Definition needs_value (ds : list definition) (x : string) : Prop :=
  (exists t y l a, In (t, TdEnum y l) (type_defs ds) /\ In a l /\ as_value a = VIdent x) \/
  (exists t y c w specs dflt, In (t, TdUnion y (UBody (DVariable c w) specs dflt)) (type_defs ds) /\ c <> TsBool /\ In (VIdent x) (labels specs)).
Definition needs_type (ds : list definition) (x : string) : Prop :=
  exists t d, mentions d = Some (TsIdent x) /\
    ((exists y l, In (t, TdStruct y l) (type_defs ds) /\ In d l) \/
     (exists y c w specs dflt, In (t, TdUnion y (UBody (DVariable c w) specs dflt)) (type_defs ds) /\
        (dflt = Some d \/ c <> TsBool /\ exists v vs, In (CaseSpec (v :: vs) d) specs))).
