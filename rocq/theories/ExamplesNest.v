(** A layered specification (C96). *)
From Verif Require Import Base SpecUtf8 RustTypes SerModel DeModel SpecXdr SpecTypes SpecMisc XdrFacts EncProofs DecProofs CodecProofs CodecLemmas Nom NomFacts Keyword Ast
  ParserModel SpecGrammar SpecParse ParseSound ParserLemmas ConstProofs Utf8 Utf8Proofs CaseModel SpecCase CaseProofs RustAst GenModel SpecGen SpecItems
  GenFacts GenTotal GenPanic GenLemmas SpecXdl GenSem SpecWire WireBase WireEnum WireLemmas WireEnums SpecEmit EmitProofs EmitFlags EmitItems EmitNames EmitRun EmitStop
  ExamplesGen ExamplesWire ExamplesEmit SpecDecode TotalProofs SpecWork WorkProofs DepthProofs ExamplesWork SpecAppend SpecNest.
Set Implicit Arguments. Unset Strict Implicit.
Local Open Scope string_scope.
Local Open Scope list_scope.

Definition album : list definition := Eval vm_compute in
  parsed "enum kind { PART = 0, WHOLE = 1 }; typedef photo roll<>; struct photo { string name<>; opaque data<>; }; struct album { roll photos; photo *cover; }; union entry switch (kind k) { case PART: photo one; case WHOLE: album all; };".
Lemma album_good : good_spec album.
Proof. apply (@parsed_good "enum kind { PART = 0, WHOLE = 1 }; typedef photo roll<>; struct photo { string name<>; opaque data<>; }; struct album { roll photos; photo *cover; }; union entry switch (kind k) { case PART: photo one; case WHOLE: album all; };"). vm_compute. reflexivity. Qed.
Definition album_rank (x : string) : nat :=
  let c := camel x in
  if String.eqb c "Entry" then 3%nat else if String.eqb c "Album" then 2%nat else if String.eqb c "Roll" then 1%nat else O.
Lemma album_layered : layered album.
Proof.
  exists album_rank. split.
  - intros x y c H K. apply camel_of_iff in H, K. unfold album_rank. now rewrite <- H, <- K.
  - intros x td d y I P M. assert (K : forallb (fun p => forallb (fun d => match mentions d with Some (TsIdent y) => Nat.ltb (album_rank y) (album_rank (fst p)) | _ => true end)
        (parts (snd p))) (type_defs album) = true) by (vm_compute; reflexivity).
    rewrite forallb_forall in K. apply K in I. cbn [fst snd] in I. rewrite forallb_forall in I. apply I in P. rewrite M in P. now apply Nat.ltb_lt in P.
Qed.
Lemma album_file : forall fl checks, exists f E, generated (main_config fl checks) album f E.
Proof.
  flags_cases; eexists; eexists; (split; [apply (@by_gen 20); [vm_compute; reflexivity|easy]|vm_compute; reflexivity]).
Qed.

(** ** Flat and circular specifications (C71) *)
Definition shapes_rank (x : string) : nat :=
  if String.eqb x "Shape" then 3%nat else if String.eqb x "Point" then 2%nat else if String.eqb x "Key" then 1%nat
  else if String.eqb x "Other" then 1%nat else O.
Lemma shapes_flat : flat shapes.
Proof.
  exists shapes_rank. intros x td d y x' y' I P M X Y. apply camel_of_iff in X as ->, Y as ->.
  assert (K : forallb (fun p => forallb (fun d => match embeds d with
      | Some (TsIdent y) => match snd p with TdStruct _ _ => String.eqb y (fst p) | _ => false end || Nat.ltb (shapes_rank (camel y)) (shapes_rank (camel (fst p)))
      | _ => true end) (parts (snd p))) (type_defs shapes) = true) by (vm_compute; reflexivity).
  rewrite forallb_forall in K. apply K in I. cbn [fst snd] in I. rewrite forallb_forall in I. apply I in P. rewrite M in P.
  apply Bool.orb_true_iff in P as [P|P]; [left|right; now apply Nat.ltb_lt in P]. destruct td as [|?|n l|]; try discriminate.
  apply String.eqb_eq in P as ->. eauto.
Qed.
Lemma shapes_generated : forall fl checks, exists f, greturns (fun n => gen_code n (main_config fl checks) shapes) (GOk f).
Proof. intros fl checks. destruct (shapes_whole fl checks) as (f & E & (G & _) & _). eauto. Qed.

Ltac undefd := let d := fresh in let F := fresh in intros d F; apply assoc_first in F; vm_compute in F; discriminate.
Lemma idiom_circle : contains_chain idiom_defs "node" "node".
Proof.
  apply cc_one. left. exists "node", [DVariable (TsInt true) "item"; DVariable (TsIdent "list") "next"], (DVariable (TsIdent "list") "next").
  split; [now right; left|]. split; [cbn; auto|]. split; [discriminate|].
  eapply bv_typedef with (x := "list"); [reflexivity|apply assoc_first; vm_compute; reflexivity|]. apply bv_item; [reflexivity|undefd].
Qed.
Lemma union_circle : contains_chain union_defs "tree" "tree".
Proof.
  apply cc_one. right. right. right.
  exists "tree", "leaf", [], [CaseSpec [VIdent "TRUE"] DVoid], None, "FALSE", [VIdent "FALSE"], (DOption (TsIdent "tree") "next").
  split; [now left|]. split; [now left|]. split; [now left|]. split; [easy|]. apply bv_item; [reflexivity|undefd].
Qed.
Lemma mutual_circle : contains_chain mutual_defs "ping" "ping".
Proof.
  eapply cc_more with (y := "pong"); [|apply cc_one].
  - left. exists "ping", [DOption (TsIdent "pong") "p"], (DOption (TsIdent "pong") "p"). split; [now left|]. split; [now left|]. split; [discriminate|].
    apply bv_item; [reflexivity|undefd].
  - left. exists "pong", [DOption (TsIdent "ping") "p"], (DOption (TsIdent "ping") "p"). split; [now right; left|]. split; [now left|]. split; [discriminate|].
    apply bv_item; [reflexivity|undefd].
Qed.
Lemma circles_generated : forall fl checks ds, In ds [idiom_defs; union_defs; mutual_defs] -> exists f, greturns (fun n => gen_code n (main_config fl checks) ds) (GOk f).
Proof.
  intros fl checks ds I. revert fl checks. destruct I as [<-|[<-|[<-|[]]]]; flags_cases; eexists; (apply (@by_gen 20); [vm_compute; reflexivity|easy]).
Qed.
