(** Concrete cases for the theorems about the amount of decoded data (C95). *)
From Verif Require Import Base SpecUtf8 RustTypes SerModel DeModel SpecXdr SpecTypes SpecMisc XdrFacts EncProofs DecProofs CodecProofs CodecLemmas Nom NomFacts Keyword Ast
  ParserModel SpecGrammar SpecParse ParseSound ParserLemmas ConstProofs Utf8 Utf8Proofs CaseModel SpecCase CaseProofs RustAst GenModel SpecGen SpecItems
  GenFacts GenTotal GenPanic GenLemmas SpecXdl GenSem SpecWire WireBase WireEnum WireLemmas WireEnums SpecEmit EmitProofs EmitFlags EmitItems EmitNames EmitRun EmitStop
  ExamplesGen ExamplesWire ExamplesEmit SpecDecode TotalProofs SpecWork WorkProofs DepthProofs.
Set Implicit Arguments. Unset Strict Implicit.
Local Open Scope string_scope.
Local Open Scope list_scope.

Lemma within_closed E l : (forall t, In t l -> forall s, In s (inner E t) -> In s l) ->
  forall u t, within E u t -> In t l -> In u l.
Proof. intros C u t. induction 1; eauto. Qed.

Lemma occupies_never E t : occupies E t -> never_empty E t.
Proof.
  intros O n v H. apply from_bytes_inv in H. apply (occupies_min O) in H. unfold zlen in H. cbn in H. lia.
Qed.

(** a tree whose nodes have a set of tags *)
Definition tree_env : env := [("Tree", TStruct [("kids", TSeq (TRef "Tree")); ("tags", TMap TStr TUnit)])].
Definition tree_types : list ty :=
  [TRef "Tree"; TStruct [("kids", TSeq (TRef "Tree")); ("tags", TMap TStr TUnit)]; TSeq (TRef "Tree"); TMap TStr TUnit; TStr; TUnit].
Definition tree_bytes : list byte :=
  [x00; x00; x00; x01; x00; x00; x00; x00; x00; x00; x00; x00; x00; x00; x00; x01; x00; x00; x00; x02; x62; x63; x00; x00].
Definition tree_value : rval := RSeq [RSeq [RSeq [RSeq []; RMap []]]; RMap [(RStr [x62; x63], RUnit)]].

Lemma tree_within u : within tree_env u (TRef "Tree") -> In u tree_types.
Proof.
  intros W. apply (@within_closed tree_env tree_types) with (TRef "Tree"); [|assumption|now left].
  intros t H s I. cbn in H. intuition (subst; cbn in I; cbn; intuition).
Qed.

Lemma tree_occupies : occupies tree_env (TRef "Tree").
Proof. eapply oc_ref; [reflexivity|]. eapply oc_struct; [now left|]. constructor. Qed.

Lemma tree_solid : solid tree_env (TRef "Tree").
Proof.
  split.
  - intros a W. apply tree_within in W. cbn in W. intuition (try discriminate).
    match goal with H : TSeq _ = TSeq _ |- _ => injection H as <- end. apply occupies_never, tree_occupies.
  - intros k v W. apply tree_within in W. cbn in W. intuition (try discriminate).
    match goal with H : TMap _ _ = TMap _ _ |- _ => injection H as <- <- end. left. apply occupies_never. constructor.
Qed.

Ltac loaded := repeat (first [eapply ld_nil | eapply ld_cons | eapply ld_all]; cbn [members own flat_map map combine app inner lookup assoc tree_env snd fst nth_error String.eqb]; cbn).

Lemma tree_case : solid tree_env (TRef "Tree") /\ from_bytes 9 tree_env (TRef "Tree") tree_bytes = Ok tree_value /\
  load tree_env (TRef "Tree") tree_value 10.
Proof.
  split; [exact tree_solid|]. split; [reflexivity|].
  assert (exists k, load tree_env (TRef "Tree") tree_value k /\ k = 10) as (k & H & ->); [|assumption].
  eexists. split; [unfold tree_value; loaded|reflexivity].
Qed.

(** a generated type without data as the element of a generated sequence *)
Definition hollow : list definition := Eval vm_compute in parsed "struct empty { int x[0]; }; struct all { empty e<>; };".
Lemma hollow_good : good_spec hollow.
Proof. apply (@parsed_good "struct empty { int x[0]; }; struct all { empty e<>; };"). vm_compute. reflexivity. Qed.
Definition hollow_env : env := [("Empty", TStruct [("x", TArray 0 (TInt true W32))]); ("All", TStruct [("e", TSeq (TRef "Empty"))])].
Lemma hollow_file fl checks : exists f, generated (main_config fl checks) hollow f hollow_env /\ compiles f.
Proof.
  revert fl checks. flags_cases; eexists; (split; [gens|compiled (fun x : string => if String.eqb x "All" then 1%nat else O)]).
Qed.

Lemma hollow_refuted : exists ds E x, good_spec ds /\
  (forall fl checks, exists f, generated (main_config fl checks) ds f E /\ compiles f) /\
  exists vs, zlen vs = 2 ^ 32 - 1 /\ returns (fun n => from_bytes n E (TRef x) [xff; xff; xff; xff]) (Ok (RSeq [RSeq vs])).
Proof.
  exists hollow, hollow_env, "All". split; [exact hollow_good|]. split; [exact hollow_file|].
  destruct (@empty_elements hollow_env (TRef "Empty") 9 (RSeq [RSeq []])) as (vs & L & _ & (_ & N & R)); [reflexivity|].
  exists vs. split; [assumption|]. specialize (R N (le_n _)). apply from_bytes_inv in R.
  apply from_bytes_accepted. eapply ac_ref; [reflexivity|]. constructor.
  rewrite <- (app_nil_r [xff; xff; xff; xff]). constructor; [assumption|constructor].
Qed.
Lemma hollow_empty : from_bytes 9 hollow_env (TRef "Empty") [] = Ok (RSeq [RSeq []]).
Proof. reflexivity. Qed.

(** a generated type that nests as deep as the input says (C96) *)
Definition chain_defs : list definition := Eval vm_compute in parsed "struct node { int item; node *next; };".
Lemma chain_good : good_spec chain_defs.
Proof. apply (@parsed_good "struct node { int item; node *next; };"). vm_compute. reflexivity. Qed.
Definition chain_env : env := [("Node", TStruct [("item", TInt true W32); ("next", TBox (TOption (TRef "Node")))])].
Lemma chain_file fl checks : exists f, generated (main_config fl checks) chain_defs f chain_env /\ compiles f.
Proof. revert fl checks. flags_cases; eexists; (split; [gens|compiled (fun _ : string => O)]). Qed.

Fixpoint chain_bytes (k : nat) : list byte :=
  match k with
  | O => repeat x00 8
  | S k => [x00; x00; x00; x07; x00; x00; x00; x01] ++ chain_bytes k
  end.
Fixpoint chain_value (k : nat) : rval :=
  match k with
  | O => RSeq [RInt 0; RNone]
  | S k => RSeq [RInt 7; RSome (chain_value k)]
  end.

Lemma chain_length k : zlen (chain_bytes k) = 8 + 8 * Z.of_nat k.
Proof. induction k as [|k IH]; [reflexivity|]. cbn [chain_bytes]. rewrite zlen_app, IH. unfold zlen. cbn [length]. lia. Qed.

Lemma chain_accepts k : accepts chain_env (TRef "Node") (chain_value k) (chain_bytes k).
Proof.
  induction k as [|k IH]; [apply (@from_bytes_inv 9); reflexivity|].
  eapply ac_ref; [reflexivity|]. constructor. cbn [chain_bytes].
  change ([x00; x00; x00; x07; x00; x00; x00; x01] ++ chain_bytes k)
    with ([x00; x00; x00; x07] ++ ([x00; x00; x00; x01] ++ chain_bytes k)).
  constructor.
  - apply (@from_bytes_inv 9). reflexivity.
  - rewrite <- (app_nil_r (_ ++ chain_bytes k)). constructor; [|constructor].
    constructor. apply ac_some with 1; [split; reflexivity|discriminate|assumption].
Qed.

Lemma chain_step n r : deser n chain_env (TRef "Node") r = Fuel ->
  deser (4 + n) chain_env (TRef "Node") ([x00; x00; x00; x07; x00; x00; x00; x01] ++ r) = Fuel.
Proof.
  intros H.
  assert (I7 : forall m q, deser (S m) chain_env (TInt true W32) ([x00; x00; x00; x07] ++ q) = Ok (RInt 7, q)).
  { intros m q. cbn [deser]. rewrite (@de_int_app true W32 7 7); [reflexivity|discriminate|split; reflexivity|cbn; lia|reflexivity]. }
  assert (O1 : deser (2 + n) chain_env (TBox (TOption (TRef "Node"))) ([x00; x00; x00; x01] ++ r) = Fuel).
  { cbn [deser Nat.add]. rewrite (@read_u32_app 1) by (split; reflexivity). cbn [bind]. rewrite H. reflexivity. }
  set (i := [x00; x00; x00; x07] ++ [x00; x00; x00; x01] ++ r).
  assert (V : visit_fields [deser (2 + n) chain_env (TInt true W32); deser (2 + n) chain_env (TBox (TOption (TRef "Node")))] 0 (2, i) = Fuel).
  { unfold i. cbn [visit_fields]. unfold next_element. cbn [Z.eqb]. change (2 + n)%nat with (S (S n)) at 1. rewrite I7. cbn -[deser]. 
    change (S (S n)) with (2 + n)%nat. cbn [app] in O1. rewrite O1. reflexivity. }
  assert (G : ('(l, s) <- visit_fields [deser (2 + n) chain_env (TInt true W32); deser (2 + n) chain_env (TBox (TOption (TRef "Node")))] 0 (2, i);;
    Ok (RSeq l, snd s)) = Fuel) by now rewrite V.
  exact G.
Qed.

Lemma chain_deep k n : (n <= 4 * k)%nat -> from_bytes n chain_env (TRef "Node") (chain_bytes k) = Fuel.
Proof.
  intros Hn. assert (D : deser (4 * k) chain_env (TRef "Node") (chain_bytes k) = Fuel).
  { clear Hn. induction k as [|k IH]; [reflexivity|].
    replace (4 * S k)%nat with (4 + 4 * k)%nat by lia. now apply chain_step. }
  unfold from_bytes. destruct (deser n chain_env (TRef "Node") (chain_bytes k)) eqn:H; try reflexivity;
    rewrite (@deser_mono n (4 * k) chain_env _ _ Hn) in D by (now rewrite H); congruence.
Qed.

Lemma deep_refuted : exists ds E x, good_spec ds /\
  (forall fl checks, exists f, generated (main_config fl checks) ds f E /\ compiles f) /\
  forall n, exists i v, zlen i <= 8 * (Z.of_nat n + 1) /\ from_bytes n E (TRef x) i = Fuel /\
    returns (fun n => from_bytes n E (TRef x) i) (Ok v).
Proof.
  exists chain_defs, chain_env, "Node". split; [exact chain_good|]. split; [exact chain_file|].
  intros n. exists (chain_bytes n), (chain_value n). rewrite chain_length. split; [lia|].
  split; [apply chain_deep; lia|]. apply from_bytes_accepted, chain_accepts.
Qed.

Definition album_env : env :=
  [("Photo", TStruct [("name", TStr); ("data", TOpaqueVar)]); ("Album", TStruct [("photos", TSeq (TRef "Photo")); ("cover", TOption (TRef "Photo"))])].
Lemma album_shallow : shallow 6 album_env (TRef "Album") = true.
Proof. reflexivity. Qed.
