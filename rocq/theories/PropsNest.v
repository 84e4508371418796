(** Property theorems about the depth and the size of generated types (C71, C96). *)
From Verif Require Import Base RustTypes Nom ParserModel SpecParse DeModel Ast GenModel SpecGen SpecItems GenSem SpecWire SpecXdl SpecGrammar SpecEmit SpecAppend SpecNest NestProofs ExamplesWire ExamplesEmit ExamplesNest.
Local Open Scope string_scope.
Local Open Scope list_scope.

(** ** C96 the type bounds the nesting of calls *)
(** Missing: definitions that are made of themselves, for which this is false (C96_deep_refuted).
    The depth [d] does not depend on the input. *)
Theorem C96_layered_partial : forall cfg ds f E x, generated cfg ds f E -> layered ds ->
  exists d, forall i, from_bytes d E (TRef x) i <> Fuel /\
    forall n, (d <= n)%nat -> from_bytes n E (TRef x) i = from_bytes d E (TRef x) i.
Proof. exact generated_shallow. Qed.
Print Assumptions C96_layered_partial.
Example C96_case_layered : good_spec album /\ layered album /\
  forall fl checks, exists f E, generated (main_config fl checks) album f E.
Proof. exact (conj album_good (conj album_layered album_file)). Qed.

(** ** C71 generated types have a finite size: false (C71_finite_refuted) *)
(** Missing: definitions that hold themselves in place, for which this is false. *)
Theorem C71_flat_partial : forall cfg ds f, greturns (fun n => gen_code n cfg ds) (GOk f) -> flat ds -> finite_size f.
Proof. exact flat_finite. Qed.
Print Assumptions C71_flat_partial.
Example C71_case_flat : flat shapes /\ forall fl checks, exists f, greturns (fun n => gen_code n (main_config fl checks) shapes) (GOk f).
Proof. exact (conj shapes_flat shapes_generated). Qed.
(** It is false of every file in which a chain of types, of any length, leads back to its beginning. *)
Theorem C71_circular : forall cfg ds f x, remove_typedef cfg = true -> greturns (fun n => gen_code n cfg ds) (GOk f) ->
  contains_chain ds x x -> ~ finite_size f.
Proof. exact circle_infinite. Qed.
Print Assumptions C71_circular.
Example C71_case_circular : contains_chain idiom_defs "node" "node" /\ contains_chain union_defs "tree" "tree" /\ contains_chain mutual_defs "ping" "ping" /\
  forall fl checks ds, remove_typedef (main_config fl checks) = true /\
    (In ds [idiom_defs; union_defs; mutual_defs] -> exists f, greturns (fun n => gen_code n (main_config fl checks) ds) (GOk f)).
Proof. exact (conj idiom_circle (conj union_circle (conj mutual_circle (fun fl checks ds => conj eq_refl (@circles_generated fl checks ds))))). Qed.
