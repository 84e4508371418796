(** Concrete protocol files for the theorems about what is emitted. *)
From Coq Require Import Permutation.
From Verif Require Import Base SpecUtf8 RustTypes SerModel DeModel SpecXdr SpecTypes SpecMisc XdrFacts EncProofs DecProofs CodecProofs CodecLemmas Nom NomFacts Keyword Ast
  ParserModel SpecGrammar SpecParse ParseSound ParserLemmas ConstProofs Utf8 Utf8Proofs CaseModel SpecCase CaseProofs RustAst GenModel SpecGen SpecItems
  GenFacts GenTotal GenPanic GenLemmas SpecXdl GenSem SpecWire WireBase WireEnum WireLemmas WireEnums SpecEmit EmitProofs EmitFlags EmitItems EmitNames EmitRun EmitStop
  ExamplesGen ExamplesWire.
Set Implicit Arguments.
Unset Strict Implicit.
Local Open Scope string_scope.
Local Open Scope list_scope.

Lemma in_by x l : existsb (String.eqb x) l = true -> In x l.
Proof. intros H. apply existsb_exists in H as (y & Hy & E). now apply String.eqb_eq in E as ->. Qed.
Ltac flags_cases := intros [[] [] [] []] [].
Ltac gens_all := eexists; split; [apply (@by_gen 20); [vm_compute; reflexivity|easy]|].

(** C63: a maximum that is not enforced *)
Definition limited : list definition := Eval vm_compute in parsed "struct limited { opaque d<4>; };".
Lemma limited_good : good_spec limited.
Proof. apply (@parsed_good "struct limited { opaque d<4>; };"). vm_compute. reflexivity. Qed.
Definition limited_file : file := Eval vm_compute in file_of plain_config limited.
Definition limited_env : env := Eval vm_compute in env_of limited_file.
Lemma limited_generated : generated plain_config limited limited_file limited_env.
Proof. gens. Qed.
Lemma limited_compiles : compiles limited_file.
Proof. compiled (fun _ : string => O). Qed.
Definition too_long : list byte := [x01; x02; x03; x04; x05].
Lemma dec_stands k s z : chars s <> [] -> Forall (fun c => is_digit c = true) (chars s) -> hd "0"%char (chars s) <> "0"%char -> constant_value k (Decimal s) = GOk z ->
  stands_for (Decimal s) z.
Proof.
  intros N D Z. apply stands_by. right. exists []. destruct (chars s) as [|d t]; [easy|]. exists d, t. inversion D; subst. repeat split; auto.
Qed.
Lemma limited_type dm : ~ xtype limited dm (TsIdent "limited") (XStruct [XOpaque too_long]).
Proof.
  assert (K : forall l, xfields limited dm l [XOpaque too_long] -> l = [DOpaqueVariable "d" (Some (dec "4"))] -> False).
  { intros l X ->. inversion X as [|d l' x xs Hd _]; subst. inversion Hd as [| | | |y m bs W| | | |]; subst. destruct W as [_ (z & V & L)].
    assert (z = 4) as ->; [|cbn in L; lia]. apply value_is_fun with (1 := V). apply vi_number.
    apply (@dec_stands KU32); [discriminate|repeat constructor|discriminate|reflexivity]. }
  intros H. assert (F : forall t, first "limited" (type_defs limited) t -> t = TdStruct "limited" [DOpaqueVariable "d" (Some (dec "4"))]).
  { intros t (a & b & E & N). cbn in E. destruct a as [|q a]; [now injection E as <- _|]. injection E as <- E. now destruct a. }
  inversion H as [| | | | | | | | | | | | | | |n d x F0|n y l x F0|n y l x F0 X|n y u x F0]; subst; apply F in F0; try discriminate.
  injection F0 as -> ->. inversion X as [| | | | | | | | | | | |l0 xs XF| | | | | |]; subst. now apply K in XF.
Qed.
Lemma limited_speaks : speaks limited_env (TRef "Limited") (RSeq [RBytes too_long]) (XStruct [XOpaque too_long]).
Proof.
  apply speaks_denotes with (XStruct [XOpaque too_long]); [|apply same_refl].
  eapply dn_ref; [reflexivity|]. constructor. repeat econstructor; cbn; lia.
Qed.
Lemma max_refuted : exists ds f E v x, good_spec ds /\ generated plain_config ds f E /\ compiles f /\
  (forall dm, ~ xtype ds dm (TsIdent "limited") x) /\ speaks E (TRef "Limited") v x.
Proof.
  exists limited, limited_file, limited_env, (RSeq [RBytes too_long]), (XStruct [XOpaque too_long]).
  exact (conj limited_good (conj limited_generated (conj limited_compiles (conj limited_type limited_speaks)))).
Qed.
Lemma limited_case : map def_without_max limited <> limited /\ greturns (fun n => gen_code n plain_config limited) (GOk limited_file).
Proof. split; [discriminate|exact (proj1 limited_generated)]. Qed.

(** C64 *)
Definition service_text : text := chars
"%#include <x>
struct args { int a; };
program PROG { version V1 { int PING(void) = 0; } = 1; } = 100;
".
Definition service : list definition := Eval vm_compute in match parse 300 service_text with GOk ds => ds | _ => [] end.
Lemma service_parses : greturns (fun n => parse n service_text) (GOk service).
Proof. apply (@by_parse 300). vm_compute. reflexivity. Qed.
Definition service_file : file := Eval vm_compute in file_of plain_config service.
Lemma service_case : greturns (fun n => gen_code n plain_config service) (GOk service_file) /\
  length service = 3%nat /\ length (filter generates service) = 1%nat /\ length (fi_types service_file) = 1%nat.
Proof. split; [apply (@by_gen 20); [vm_compute; reflexivity|easy]|easy]. Qed.

(** C65 *)
Lemma shapes_case : Permutation shapes (rev shapes) /\ no_redefinition shapes /\
  greturns (fun n => gen_code n plain_config shapes) (GOk (file_of plain_config shapes)).
Proof.
  split; [apply Permutation_rev|]. split; [split; [|split]; vm_compute; nodup|]. apply (@by_gen 20); [vm_compute; reflexivity|vm_compute; discriminate].
Qed.

(** C66, C67 *)
Lemma rpcgen_of fl checks src ds f : greturns (fun n => parse n src) (GOk ds) -> greturns (fun n => gen_code n (main_config fl checks) ds) (GOk f) ->
  greturns (fun n => rpcgen n fl checks src) (GOk f).
Proof.
  intros [_ [N P]] [_ [M G]]. split; [easy|]. exists (Nat.max N M). intros n L. unfold rpcgen. rewrite P by lia. cbn. apply G. lia.
Qed.
Lemma shapes_runs : forall fl checks, exists f, greturns (fun n => rpcgen n fl checks shapes_text) (GOk f) /\ structs f <> [] /\ enums f <> [] /\ unions f <> [].
Proof.
  flags_cases; eexists; (split; [eapply rpcgen_of; [exact shapes_parses|apply (@by_gen 20); [vm_compute; reflexivity|easy]]|easy]).
Qed.

(** C68 *)
Lemma gap_scope : one_scope gap.
Proof. unfold one_scope. vm_compute. intros x H. intuition (subst; discriminate). Qed.
Lemma pick_scope : one_scope pick.
Proof. unfold one_scope. vm_compute. intros x H. intuition (subst; discriminate). Qed.

(** C69, C70: names that are words of Rust *)
Lemma runs_by src ds : parse 300 (chars src) = GOk ds -> greturns (fun n => parse n (chars src)) (GOk ds).
Proof. apply by_parse. Qed.
Ltac runs P := eapply rpcgen_of; [exact P|apply (@by_gen 20); [vm_compute; reflexivity|easy]].
Definition self_defs : list definition := Eval vm_compute in parsed "struct self { int a; };".
Lemma self_parses : greturns (fun n => parse n (chars "struct self { int a; };")) (GOk self_defs).
Proof. apply runs_by. vm_compute. reflexivity. Qed.
Definition match_defs : list definition := Eval vm_compute in parsed "const match = 3;".
Lemma match_parses : greturns (fun n => parse n (chars "const match = 3;")) (GOk match_defs).
Proof. apply runs_by. vm_compute. reflexivity. Qed.
Lemma self_type : forall fl checks, exists f i, greturns (fun n => rpcgen n fl checks (chars "struct self { int a; };")) (GOk f) /\
  In i (fi_types f) /\ In (item_name i) rust_words.
Proof. flags_cases; do 2 eexists; (split; [runs self_parses|split; [now left|apply in_by; reflexivity]]). Qed.
Lemma match_const : forall fl checks, exists f c, greturns (fun n => rpcgen n fl checks (chars "const match = 3;")) (GOk f) /\
  In c (fi_consts f) /\ In (co_name c) rust_words.
Proof. flags_cases; do 2 eexists; (split; [runs match_parses|split; [now left|apply in_by; reflexivity]]). Qed.

(** C71: types of infinite size *)
Definition mutual_text : text := chars "struct ping { pong *p; }; struct pong { ping *p; };".
Definition mutual_defs : list definition := Eval vm_compute in parsed "struct ping { pong *p; }; struct pong { ping *p; };".
Lemma mutual_parses : greturns (fun n => parse n mutual_text) (GOk mutual_defs).
Proof. apply (@by_parse 300). vm_compute. reflexivity. Qed.
Definition union_text : text := chars "union tree switch (bool leaf) { case FALSE: tree *next; case TRUE: void; };".
Definition union_defs : list definition := Eval vm_compute in parsed "union tree switch (bool leaf) { case FALSE: tree *next; case TRUE: void; };".
Lemma union_parses : greturns (fun n => parse n union_text) (GOk union_defs).
Proof. apply (@by_parse 300). vm_compute. reflexivity. Qed.
Definition idiom_text : text := chars "typedef node *list; struct node { int item; list next; };".
Definition idiom_defs : list definition := Eval vm_compute in parsed "typedef node *list; struct node { int item; list next; };".
Lemma idiom_parses : greturns (fun n => parse n idiom_text) (GOk idiom_defs).
Proof. apply (@by_parse 300). vm_compute. reflexivity. Qed.
Ltac runs_text := eapply rpcgen_of; [apply (@by_parse 300); vm_compute; reflexivity|apply (@by_gen 20); [vm_compute; reflexivity|easy]].
Lemma cyclic2 f i j : In i (fi_types f) -> In j (fi_types f) -> In (item_name j) (item_inline i) -> In (item_name i) (item_inline j) -> ~ finite_size f.
Proof. intros Hi Hj A B [rank R]. pose proof (R _ _ Hi A). pose proof (R _ _ Hj B). lia. Qed.
Lemma infinite : forall fl checks src, In src [mutual_text; union_text; idiom_text] ->
  exists f, greturns (fun n => rpcgen n fl checks src) (GOk f) /\ ~ finite_size f.
Proof.
  flags_cases; intros src [<-|[<-|[<-|[]]]]; eexists; (split; [first [runs mutual_parses|runs union_parses|runs idiom_parses]|]).
  all: try (eapply cyclic2; [now left|right; now left|cbn; tauto|cbn; tauto]).
  all: try (eapply cyclic2; [now left|now left|cbn; tauto|cbn; tauto]).
Qed.
Definition list_text : text := chars "struct node { int item; node *next; };".
Lemma list_case : exists f s, greturns (fun n => rpcgen n (Flags false false false false) true list_text) (GOk f) /\ In s (structs f) /\ finite_size f.
Proof.
  do 2 eexists. split; [runs_text|]. split; [now left|]. exists (fun _ => 0%nat). intros i y [<-|[]] Hy. cbn in Hy. contradiction.
Qed.

(** C72 *)
Definition numbered : list definition := Eval vm_compute in parsed "union u switch (unsigned int k) { case 1: int x; default: void; };".
Lemma numbered_good : good_spec numbered.
Proof. apply (@parsed_good "union u switch (unsigned int k) { case 1: int x; default: void; };"). vm_compute. reflexivity. Qed.
Lemma numbered_stuck : forall fl checks, exists f, greturns (fun n => gen_code n (main_config fl checks) numbered) (GOk f) /\ file_env f = None.
Proof. flags_cases; gens_all; reflexivity. Qed.

(** C73 *)
Definition holed : list definition := Eval vm_compute in parsed "enum e { A = 0, B = 2 };".
Lemma holed_good : good_spec holed.
Proof. apply (@parsed_good "enum e { A = 0, B = 2 };"). vm_compute. reflexivity. Qed.
Definition holed_file : file := Eval vm_compute in file_of plain_config holed.
Definition holed_env : env := Eval vm_compute in env_of holed_file.
Lemma holed_generated : generated plain_config holed holed_file holed_env.
Proof. gens. Qed.
Lemma holed_compiles : compiles holed_file.
Proof. compiled (fun _ : string => O). Qed.
Lemma holed_scope : one_scope holed.
Proof. unfold one_scope. vm_compute. intros x H. intuition (subst; discriminate). Qed.
Lemma holed_members a z : In a [Assign "A" (dec "0"); Assign "B" (dec "2")] -> value_is holed (as_value a) z -> z = 0 \/ z = 2.
Proof.
  assert (S : forall s z w, value_is holed (VConst (Decimal s)) z -> In (VConst (Decimal s)) (map snd (member_defs holed)) ->
    constant_value KI32 (Decimal s) = GOk w -> z = w).
  { intros s z' w V I CV. apply in_map_iff in I as ([x v] & E & I). cbn in E. subst v. eapply value_is_fun; [exact V|]. apply vi_number.
    eapply member_stands; [exact holed_good|exact I|exact CV]. }
  intros [<-|[<-|[]]] V; cbn in V; [left|right]; apply (S _ _ _ V); try reflexivity; cbn; tauto.
Qed.
Lemma holed_refuted : exists ds f E x l z bs v, good_spec ds /\ generated plain_config ds f E /\ compiles f /\
  In (x, TdEnum x l) (type_defs ds) /\ (forall a, In a l -> ~ value_is ds (as_value a) z) /\ signed 4 z bs /\
  returns (fun n => from_bytes n E (TRef "E") bs) (Ok v).
Proof.
  exists holed, holed_file, holed_env, "e", [Assign "A" (dec "0"); Assign "B" (dec "2")], 1, [x00; x00; x00; x01], (RVariant 1 []).
  split; [exact holed_good|]. split; [exact holed_generated|]. split; [exact holed_compiles|]. split; [now left|].
  split; [intros a Ha V; apply (holed_members Ha) in V; lia|]. split; [split; [reflexivity|left; cbn; lia]|]. apply returns_from_bytes with 9%nat; easy.
Qed.
Lemma holed_case : good_spec holed /\ one_scope holed /\ greturns (fun n => gen_code n plain_config holed) (GOk holed_file) /\ compiles holed_file /\
  forall a z, In a [Assign "A" (dec "0"); Assign "B" (dec "2")] -> value_is holed (as_value a) z -> 0 <= z.
Proof.
  split; [exact holed_good|]. split; [exact holed_scope|]. split; [exact (proj1 holed_generated)|]. split; [exact holed_compiles|].
  intros a z Ha V. apply (holed_members Ha) in V. lia.
Qed.

(** C74 *)
Definition endless : list definition := Eval vm_compute in parsed "struct node { node next; };".
Lemma endless_good : good_spec endless.
Proof. apply (@parsed_good "struct node { node next; };"). vm_compute. reflexivity. Qed.
Definition endless_file : file := Eval vm_compute in file_of plain_config endless.
Definition endless_env : env := Eval vm_compute in env_of endless_file.
Lemma endless_generated : generated plain_config endless endless_file endless_env.
Proof. gens. Qed.
Lemma endless_compiles : compiles endless_file.
Proof. compiled (fun _ : string => O). Qed.
Lemma endless_diverges i : diverges (fun n => from_bytes n endless_env (TRef "Node") i).
Proof.
  assert (H : forall n, deser n endless_env (TRef "Node") i = Fuel /\ deser n endless_env (TBox (TRef "Node")) i = Fuel /\
    deser n endless_env (TStruct [("next", TBox (TRef "Node"))]) i = Fuel).
  { induction n as [|n (IH1 & IH2 & IH3)]; [easy|]. split; [exact IH3|]. split; [exact IH1|]. cbn. now rewrite IH2. }
  intros n. unfold from_bytes. destruct (H n) as [-> _]. reflexivity.
Qed.
Lemma endless_refuted : exists ds f E x, good_spec ds /\ generated plain_config ds f E /\ compiles f /\ forall i, diverges (fun n => from_bytes n E (TRef x) i).
Proof. exact (ex_intro _ endless (ex_intro _ endless_file (ex_intro _ endless_env (ex_intro _ "Node" (conj endless_good (conj endless_generated (conj endless_compiles endless_diverges))))))). Qed.
Lemma chain_self : self_free shapes.
Proof.
  intros x y l d H Hd M. cbn in H. repeat (destruct H as [H|H]; [try discriminate; injection H as <- <- <-|]); [|destruct H].
  cbn in Hd. repeat (destruct Hd as [<-|Hd]; [try discriminate M|]); [|destruct Hd]. left. eauto.
Qed.
Lemma shapes_whole fl checks : exists f E, generated (main_config fl checks) shapes f E /\ compiles f /\ self_free shapes.
Proof. destruct (w_exists (shapes_supported fl checks)) as (f & E & G & C). exists f, E. exact (conj G (conj C chain_self)). Qed.

(** C76 *)
Definition choice : list definition := Eval vm_compute in parsed "enum e { A = 0, B = 3 }; union u switch (e s) { case A: int x; case B: void; };".
Definition choice_file : file := Eval vm_compute in file_of indexer_config choice.
Definition choice_env : env := Eval vm_compute in env_of choice_file.
Lemma choice_case : generated indexer_config choice choice_file choice_env /\ union_impl_indexer indexer_config = true /\ no_default_arms choice.
Proof.
  split; [gens|]. split; [reflexivity|]. intros x y c specs dflt H. cbn in H. destruct H as [H|[H|[]]]; [discriminate|]. now injection H as _ _ _ _ <-.
Qed.
Lemma choice_panics : exists ds f E v bs, good_spec ds /\ generated indexer_config ds f E /\ compiles f /\
  returns (fun n => from_bytes n E (TRef "U") bs) (Ok v) /\ returns (fun n => to_bytes n E (TRef "U") v) Panic.
Proof.
  exists pick, pick_ix_file, pick_ix_env, (RVariant 1 []), [x00; x00; x00; x02].
  exact (conj pick_good (conj pick_ix_generated (conj pick_ix_compiles pick_ix_read))).
Qed.
Lemma pick_has : enums pick_file <> [] /\ unions pick_file <> [].
Proof. split; intros X; vm_compute in X; discriminate X. Qed.
Lemma shapes_consts : greturns (fun n => gen_code n plain_config shapes) (GOk (file_of plain_config shapes)) /\
  map fst (const_defs shapes) = ["MAX"; "LIMIT"].
Proof. split; [exact (proj2 (proj2 shapes_case))|vm_compute; reflexivity]. Qed.
