(** Concrete circles. *)
From Verif Require Import Base Nom Ast ParserModel SpecGrammar SpecParse RustAst GenModel SpecGen SpecItems GenFacts SpecCircle ExamplesGen.
Set Implicit Arguments.
Unset Strict Implicit.
Local Open Scope string_scope.
Local Open Scope list_scope.

Lemma loop_circle : greturns (fun n => parse n loop_text) (GOk loop_defs) /\ needs_value loop_defs "A" /\ circular loop_defs "A".
Proof.
  split; [exact loop_parses|]. split.
  - left. exists "e", "e", [Assign "M" (VIdent "A")], (Assign "M" (VIdent "A")). repeat split; now left.
  - exists (fun x => In x ["A"; "B"]). split; [now left|]. intros y [<-|[<-|[]]].
    + exists "B". split; [right; now left|]. left. now apply assoc_first.
    + exists "A". split; [now left|]. left. now apply assoc_first.
Qed.
Lemma typedef_circle : greturns (fun n => parse n typedef_loop_text) (GOk typedef_loop) /\ needs_type typedef_loop "a" /\ circular_type typedef_loop "a".
Proof.
  split; [exact typedef_loop_parses|]. split.
  - exists "s", (DVariable (TsIdent "a") "x"). split; [reflexivity|]. left. exists "s", [DVariable (TsIdent "a") "x"]. split; [right; right; now left|now left].
  - exists (fun x => In x ["a"; "b"]). split; [now left|]. intros y [<-|[<-|[]]].
    + exists (DVariable (TsIdent "b") "a"), "b". split; [right; now left|]. split; [now apply assoc_first|reflexivity].
    + exists (DVariable (TsIdent "a") "b"), "a". split; [now left|]. split; [now apply assoc_first|reflexivity].
Qed.
(** members of two enums that refer to each other, as a case label; a typedef of an
    array of itself in a union *)
Definition ring_text : text := chars "enum e { M = N }; enum f { N = M }; union u switch (int i) { case N: void; };".
Definition ring : list definition := Eval vm_compute in match parse 300 ring_text with GOk ds => ds | _ => [] end.
Lemma ring_circle : greturns (fun n => parse n ring_text) (GOk ring) /\ needs_value ring "N" /\ circular ring "N".
Proof.
  split; [apply (@by_parse 300); vm_compute; reflexivity|]. split.
  - right. eexists "u", "u", (TsInt true), "i", _, _. split; [right; right; left; reflexivity|]. split; [discriminate|now left].
  - exists (fun x => In x ["M"; "N"]). split; [right; now left|]. intros y [<-|[<-|[]]].
    + exists "N". split; [right; now left|]. right. split; [intros []|]. now apply assoc_first.
    + exists "M". split; [now left|]. right. split; [intros []|]. now apply assoc_first.
Qed.
Definition coil_text : text := chars "typedef t t<>; union u switch (int i) { case 1: t a; default: t b; };".
Definition coil : list definition := Eval vm_compute in match parse 300 coil_text with GOk ds => ds | _ => [] end.
Lemma coil_circle : greturns (fun n => parse n coil_text) (GOk coil) /\ needs_type coil "t" /\ circular_type coil "t".
Proof.
  split; [apply (@by_parse 300); vm_compute; reflexivity|]. split.
  - exists "u", (DVariable (TsIdent "t") "a"). split; [reflexivity|]. right. eexists "u", (TsInt true), "i", _, _. split; [right; left; reflexivity|].
    right. split; [discriminate|]. eexists _, _. left. reflexivity.
  - exists (fun x => x = "t"). split; [reflexivity|]. intros y ->. eexists _, "t". split; [reflexivity|]. split; [apply assoc_first; reflexivity|reflexivity].
Qed.
