(** Concrete files that the Rust compiler rejects. *)
From Verif Require Import Base RustTypes Nom NomFacts Keyword Ast ParserModel SpecGrammar SpecParse ParseSound ParserLemmas
  ConstProofs CaseModel SpecCase CaseProofs RustAst GenModel SpecGen SpecItems GenFacts GenTotal GenPanic GenLemmas
  SpecXdl GenSem SpecWire WireBase WireEnum WireStruct ExamplesGen ExamplesWire WireSem SpecEmit ExamplesEmit SpecReject EmitReject.
Local Open Scope string_scope.
Local Open Scope list_scope.

Definition named_len : list definition := Eval vm_compute in parsed "const N = 3; struct row { int cells[N]; };".
Definition handle : list definition := Eval vm_compute in parsed "const SIZE = 64; struct handle { opaque data[SIZE]; };".
Definition member : list definition := Eval vm_compute in parsed "enum e { M = 1 }; const C = M;".
Definition palette : list definition := Eval vm_compute in parsed "enum color { RED = 1 }; struct palette { color all<>; };".
Definition by_int : list definition := Eval vm_compute in parsed "const ONE = 1; union u switch (int k) { case ONE: int x; };".
Definition other : list definition := Eval vm_compute in parsed "struct row { other o; };".

Ltac good t := apply (@parsed_good t); vm_compute; reflexivity.
Lemma named_len_good : good_spec named_len. Proof. good "const N = 3; struct row { int cells[N]; };". Qed.
Lemma handle_good : good_spec handle. Proof. good "const SIZE = 64; struct handle { opaque data[SIZE]; };". Qed.
Lemma member_good : good_spec member. Proof. good "enum e { M = 1 }; const C = M;". Qed.
Lemma palette_good : good_spec palette. Proof. good "enum color { RED = 1 }; struct palette { color all<>; };". Qed.
Lemma by_int_good : good_spec by_int. Proof. good "const ONE = 1; union u switch (int k) { case ONE: int x; };". Qed.
Lemma other_good : good_spec other. Proof. good "struct row { other o; };". Qed.

Definition emits (ds : list definition) : Prop := forall fl checks, exists f, greturns (fun n => gen_code n (main_config fl checks) ds) (GOk f).
Ltac emitted := hnf; intros [[] [] [] []] []; eexists; (apply (@by_gen 20); [vm_compute; reflexivity|easy]).

Lemma named_len_emits : emits named_len. Proof. emitted. Qed.
Lemma handle_emits : emits handle. Proof. emitted. Qed.
Lemma member_emits : emits member. Proof. emitted. Qed.
Lemma palette_emits : emits palette. Proof. emitted. Qed.
Lemma by_int_emits : emits by_int. Proof. emitted. Qed.
Lemma other_emits : emits other. Proof. emitted. Qed.

Lemma named_len_in : exists x y l t z c, In (x, TdStruct y l) (type_defs named_len) /\ In (DFixedArray t z (VIdent c)) l.
Proof. do 6 eexists. split; [left; reflexivity|left; reflexivity]. Qed.
Lemma handle_in : exists x y l w v, In (x, TdStruct y l) (type_defs handle) /\ In (DOpaqueFixed w v) l /\ value_is handle v 64.
Proof.
  do 5 eexists. split; [left; reflexivity|]. split; [left; reflexivity|].
  apply (@const_value handle "SIZE" (Decimal "64") KU32); [exact handle_good|reflexivity|reflexivity].
Qed.
Lemma member_in : In ("C", VIdent "M") (const_defs member) /\ ~ In "M" (map fst (const_defs member)).
Proof. split; [left; reflexivity|]. cbn. intuition discriminate. Qed.
Lemma palette_in : NoDup (map fst (type_defs palette)) /\ exists x y l d e z m, In (x, TdStruct y l) (type_defs palette) /\ In d l /\
  In (e, TdEnum z m) (type_defs palette) /\ mentions d = Some (TsIdent e) /\ forall w, d <> DVariable (TsIdent e) w.
Proof.
  split; [cbn; nodup|]. do 7 eexists. split; [right; left; reflexivity|]. split; [left; reflexivity|]. split; [left; reflexivity|]. split; [reflexivity|discriminate].
Qed.
Lemma by_int_in : exists x y w specs dflt, In (x, TdUnion y (UBody (DVariable (TsInt true) w) specs dflt)) (type_defs by_int).
Proof. do 5 eexists. left. reflexivity. Qed.
Lemma other_in : exists x y l d, In (x, TdStruct y l) (type_defs other) /\ In d l /\ mentions d = Some (TsIdent "other") /\
  camel_of "other" "Other" /\ (forall z t, In (z, t) (type_defs other) -> ~ camel_of z "Other") /\ ~ In "Other" taken.
Proof.
  do 4 eexists. split; [left; reflexivity|]. split; [left; reflexivity|]. split; [reflexivity|]. split; [now apply camel_of_iff|].
  split; [|cbn; intuition discriminate]. intros z t [H|[]]. injection H as <- _. rewrite camel_of_iff. discriminate.
Qed.
Lemma named_len_rejected : exists ds, good_spec ds /\ forall fl checks, exists f,
  greturns (fun n => gen_code n (main_config fl checks) ds) (GOk f) /\ rejected f.
Proof.
  exists named_len. split; [exact named_len_good|]. intros fl checks. destruct (named_len_emits fl checks) as [f H]. exists f. split; [exact H|].
  destruct named_len_in as (x & y & l & t & z & c & I & D). exact (named_length_g H I D).
Qed.
Lemma numbered_rejected : forall fl checks, exists f, greturns (fun n => gen_code n (main_config fl checks) numbered) (GOk f) /\ rejected f.
Proof.
  intros fl checks. destruct (numbered_stuck fl checks) as (f & H & _). exists f. split; [exact H|].
  eapply (@number_label (main_config fl checks) numbered f); [exact numbered_good|exact H|left; reflexivity|discriminate|left; reflexivity].
Qed.
Lemma shapes_accepted : exists src, greturns (fun n => parse n src) (GOk shapes) /\ forall fl checks, definitions_ok (main_config fl checks) shapes.
Proof. exists shapes_text. split; [exact shapes_parses|]. intros fl checks. apply shapes_ok. Qed.
