(** Specification: the names that become the type name Self (C69). *)
From Verif Require Import Base Nom SpecGrammar SpecParse SpecCase.

(** [self] or [Self]; or these four letters, in either case, with underscores
    before or after them *)
Definition self_name (x : string) : Prop :=
  In x ["self"%string; "Self"%string] \/
  (exists a b p, (0 < a + b)%nat /\ chars x = (repeat underscore a ++ p ++ repeat underscore b)%list /\ map small p = chars "self").
