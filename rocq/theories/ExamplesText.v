(** Concrete cases for the text and the program. *)
From Verif Require Import Base SpecUtf8 Utf8 Utf8Proofs RustTypes SpecTypes Nom NomFacts Ast ParserModel SpecGrammar SpecParse ParseSound ParserLemmas
  CaseModel SpecCase RustAst GenModel SpecGen GenFacts GenTotal GenLemmas SpecXdl GenSem SpecWire ExamplesGen ExamplesWire ExamplesEmit ExamplesReject
  RustText SpecRust SpecSyntax MainModel SpecMain MainProofs.
Local Open Scope string_scope.
Local Open Scope list_scope.

Lemma by_rpcgen n fl checks src f : rpcgen n fl checks src = GOk f -> greturns (fun n => rpcgen n fl checks src) (GOk f).
Proof.
  intros H. assert (H' := H). unfold rpcgen in H. destruct (parse n src) as [ds| | |] eqn:P; try discriminate. cbn [gbind] in H.
  apply (proj2 (rpcgen_parts fl checks src f)). exists ds. split; [exact (parse_sound P)|].
  split; [discriminate|]. exists n. intros m L. rewrite <- H. apply gen_mono; [exact L|congruence].
Qed.

(** files that the generator returns without an error and that are not Rust *)
Definition unread_sources : list text :=
  map chars ["union u switch (int a) { case 5: int b; };"; "struct self { int a; };"; "const match = 3;"].
Lemma unread : Forall (fun src => forall fl checks, exists f,
  greturns (fun n => rpcgen n fl checks src) (GOk f) /\ read_rust (printed f) = None) unread_sources.
Proof.
  repeat (constructor; [intros [[] [] [] []] []; eexists; (split; [apply (@by_rpcgen 80); vm_compute; reflexivity|vm_compute; reflexivity])|]).
  constructor.
Qed.

(** the text for a small file *)
Definition small_source : text := chars "const N = 3; struct row { int type; opaque data[N]; };".
Lemma small_printed : exists f, greturns (fun n => rpcgen n (Flags false false false false) true small_source) (GOk f) /\
  str (printed f) = String.append
    "use serde :: { Deserialize , Serialize } ; pub const N : u32 = 3u32 ; # [derive (Clone , Debug , Default , Deserialize , Serialize)] pub struct Row { pub r#type : i32 , # [serde (with = ""serde_xdr::opaque::fixed"")] pub data : [u8 ; N as usize] }"
    (String "010"%char EmptyString).
Proof. eexists. split; [apply (@by_rpcgen 80); vm_compute; reflexivity|vm_compute; reflexivity]. Qed.

Lemma shapes_program : exists bs, valid_utf8 bs /\ denotes_text shapes (text_of bs) /\
  forall fl checks, definitions_ok (main_config fl checks) shapes.
Proof.
  exists (bytes_of shapes_text). rewrite text_bytes. split; [apply utf8_ok_spec; vm_compute; reflexivity|].
  split; [|intros fl checks; apply shapes_ok]. destruct (greturns_run shapes_parses) as (n & R & _). exact (parse_sound R).
Qed.
Lemma shapes_exits : exists bs, forall fl checks, exists out, exits fl checks (Some bs) out 0.
Proof.
  destruct shapes_program as (bs & V & D & W). exists bs. intros fl checks. destruct (good_file V D (W fl checks)) as (out & f & H & _). eauto.
Qed.
Lemma not_utf8_case : ~ valid_utf8 ["255"%byte].
Proof. rewrite <- utf8_ok_spec. vm_compute. discriminate. Qed.
Lemma no_denotation n t : parse n t = GErr GTrailingData -> (length t < n)%nat -> forall ds, ~ denotes_text ds t.
Proof.
  intros P L ds D. pose proof (parse_returns L) as R. rewrite P in R. pose proof (c33_unique R (c31 D)) as E. discriminate.
Qed.
Lemma not_protocol_case : forall ds, ~ denotes_text ds (text_of (bytes_of (chars "struct s { int a }"))).
Proof. rewrite text_bytes. apply (@no_denotation 100); [vm_compute; reflexivity|cbn; lia]. Qed.
(** the three ways to end after a correct parse *)
Definition panic_bytes : list byte := bytes_of (chars "struct s { int self; };").
Lemma panic_program : exits (Flags false false false false) true (Some panic_bytes) [] 101.
Proof.
  assert (P : panics (plain_config, "struct s { int self; };")) by (apply panics_by; vm_compute; reflexivity).
  destruct P as (ds & P & G). apply (@main_runs _ _ _ GPanic).
  - apply utf8_ok_spec. vm_compute. reflexivity.
  - unfold panic_bytes. rewrite text_bytes. destruct (greturns_run P) as (n & R & _). exact (rpcgen_result (parse_sound R) G).
Qed.
Definition error_bytes : list byte := bytes_of (chars "struct s { quadruple a; };").
Lemma error_program : valid_utf8 error_bytes /\ (exists ds, denotes_text ds (text_of error_bytes)) /\
  exits (Flags false false false false) true (Some error_bytes) [] 1.
Proof.
  assert (V : valid_utf8 error_bytes) by (apply utf8_ok_spec; vm_compute; reflexivity).
  set (t := chars "struct s { quadruple a; };").
  destruct (parse 100 t) as [ds| | |] eqn:P; try (vm_compute in P; discriminate).
  assert (D : denotes_text ds (text_of error_bytes)) by (unfold error_bytes; rewrite text_bytes; exact (parse_sound P)).
  split; [exact V|]. split; [now exists ds|]. apply (@main_runs _ _ _ (GErr GNotSupported) V). apply (rpcgen_result D).
  vm_compute in P. injection P as <-. apply (greturns_mono (@gen_mono _ _) (n := 20)); [vm_compute; reflexivity|discriminate].
Qed.
Lemma loop_program : exists bs, valid_utf8 bs /\ forall fl checks out st, ~ exits fl checks (Some bs) out st.
Proof.
  exists (bytes_of loop_text). assert (V : valid_utf8 (bytes_of loop_text)) by (apply utf8_ok_spec; vm_compute; reflexivity).
  split; [exact V|]. intros fl checks out st H. destruct (main_ends V H) as [r R]. rewrite text_bytes in R. destruct R as [Q [N R]].
  destruct loop_parses as [_ [N' P]]. specialize (R (Nat.max N N') ltac:(lia)). unfold rpcgen in R. rewrite P in R by lia. cbn [gbind] in R.
  rewrite (loop_diverges (main_config fl checks)) in R. congruence.
Qed.
