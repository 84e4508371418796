(** Definitions appended to a protocol file. *)
From Verif Require Import Base RustTypes Nom Keyword Ast ParserModel SpecGrammar SpecParse ParserLemmas RustAst GenModel SpecGen SpecItems
  GenFacts SpecEmit SpecAppend ExamplesGen ExamplesWire ExamplesUpgrade ExamplesText.
Set Implicit Arguments.
Unset Strict Implicit.
Local Open Scope string_scope.
Local Open Scope list_scope.

Definition extra_text : text := chars
"const EXTRA = 5;
enum mode { SLOW = 0, FAST = EXTRA };
struct job { call todo; mode speed; unsigned int weights[EXTRA]; };
".
Definition extra : list definition :=
  Eval vm_compute in match parse 900 extra_text with GOk ds => ds | _ => [] end.
Lemma extra_parses : greturns (fun n => parse n extra_text) (GOk extra).
Proof. apply (@by_parse 900). vm_compute. reflexivity. Qed.
Lemma extra_unknown : unknown_names early extra.
Proof.
  intros x D. assert (I : In x ["EXTRA"; "SLOW"; "FAST"; "mode"; "job"]).
  { unfold defines in D. cbn in D. cbn. tauto. }
  split.
  - unfold defines. cbn. cbn in I. intuition (subst; discriminate).
  - intros [[y H]|[[y H]|(y & t & H & L)]]; cbn in H; [easy|intuition discriminate|].
    destruct H as [[= <- <-]|[[= <- <-]|[]]]; cbn in L.
    + destruct L as [[]|(d & [] & _)].
    + cbn in I. destruct L as [L|(d & Id & M)]; [intuition (subst; discriminate)|].
      destruct Id as [<-|[<-|[<-|[]]]]; cbn in M; try discriminate. injection M as <-. intuition discriminate.
Qed.
Lemma extra_string : ~ In "String" (map fst (type_defs extra)).
Proof. cbn. intuition discriminate. Qed.
Lemma extra_runs : forall fl checks, exists f, greturns (fun n => rpcgen n fl checks (early_text ++ extra_text)) (GOk f).
Proof. intros [[] [] [] []] []; eexists; apply (@by_rpcgen 900); vm_compute; reflexivity. Qed.

(** an enum called String *)
Definition note_text : text := chars "struct note { string body<>; };".
Definition note : list definition := Eval vm_compute in parsed "struct note { string body<>; };".
Definition strange_text : text := chars "enum String { A = 0, B = 1 };".
Definition strange : list definition := Eval vm_compute in parsed "enum String { A = 0, B = 1 };".
Lemma strange_witness : exists fl src src' ds more f f' s s' fd, greturns (fun n => parse n src) (GOk ds) /\ greturns (fun n => parse n src') (GOk more) /\
  unknown_names ds more /\ greturns (fun n => rpcgen n fl true src) (GOk f) /\ greturns (fun n => rpcgen n fl true (src ++ src')) (GOk f') /\
  structs f = [s] /\ structs f' = [s'] /\ In fd (st_fields s) /\ ~ In fd (st_fields s').
Proof.
  exists (Flags true false true false), note_text, strange_text, note, strange.
  eexists _, _, _, _, _. split; [apply (@by_parse 300); vm_compute; reflexivity|]. split; [apply (@by_parse 300); vm_compute; reflexivity|].
  split.
  { intros x D. assert (I : In x ["A"; "B"; "String"]) by (unfold defines in D; cbn in D; cbn; tauto). split.
    - unfold defines. cbn. cbn in I. intuition (subst; discriminate).
    - intros [[y H]|[[y H]|(y & t & H & L)]]; cbn in H; [easy|easy|].
      destruct H as [[= <- <-]|[]]. cbn in L. destruct L as [[]|(d & [<-|[]] & M)]. discriminate. }
  split; [apply (@by_rpcgen 300); vm_compute; reflexivity|]. split; [apply (@by_rpcgen 300); vm_compute; reflexivity|].
  split; [reflexivity|]. split; [reflexivity|]. split; [now left|]. cbn. intros [E|[]]. discriminate.
Qed.
