(** Property theorems about names that lead round in a circle (C41). *)
From Verif Require Import Base Nom Ast ParserModel SpecGrammar SpecParse RustAst GenModel SpecGen SpecCircle CircleProofs ExamplesGen ExamplesCircle.
Local Open Scope string_scope.
Local Open Scope list_scope.

(** ** C41 no circle of names, whatever its length and the kinds of definitions in
    it, is ever translated *)
Theorem C41_circular_values : forall cfg ds x n f, needs_value ds x -> circular ds x -> gen_code n cfg ds <> GOk f.
Proof. exact circular_never. Qed.
Print Assumptions C41_circular_values.
Theorem C41_circular_types : forall cfg ds x n f, remove_typedef cfg = true -> needs_type ds x -> circular_type ds x -> gen_code n cfg ds <> GOk f.
Proof. exact circular_type_never. Qed.
Print Assumptions C41_circular_types.
Example C41_circular_constants : greturns (fun n => parse n loop_text) (GOk loop_defs) /\ needs_value loop_defs "A" /\ circular loop_defs "A".
Proof. exact loop_circle. Qed.
Example C41_circular_members : greturns (fun n => parse n ring_text) (GOk ring) /\ needs_value ring "N" /\ circular ring "N".
Proof. exact ring_circle. Qed.
Example C41_circular_typedefs : greturns (fun n => parse n typedef_loop_text) (GOk typedef_loop) /\ needs_type typedef_loop "a" /\ circular_type typedef_loop "a".
Proof. exact typedef_circle. Qed.
Example C41_circular_self : greturns (fun n => parse n coil_text) (GOk coil) /\ needs_type coil "t" /\ circular_type coil "t".
Proof. exact coil_circle. Qed.
