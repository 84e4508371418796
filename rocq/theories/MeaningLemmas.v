From Verif Require Import Base SpecUtf8 RustTypes SpecTypes Nom Ast ParserModel SpecGrammar SpecParse ParserLemmas CaseModel SpecCase CaseProofs RustAst GenModel SpecGen
  GenFacts GenTotal GenPanic GenLemmas SpecItems SpecXdl GenSem SpecWire WireLemmas SpecEmit EmitProofs EmitFlags EmitItems EmitNames RustText SpecRust SpecSyntax TextLegible MainModel SpecMain MainProofs
  SpecMeaning MeaningProofs.
Set Implicit Arguments.
Unset Strict Implicit.
Local Open Scope string_scope.
Local Open Scope list_scope.

Lemma camel_builtin x : In (camel x) (map fst builtins) -> camel x = "String".
Proof.
  intros H. pose proof (camel_start (chars x)) as S.
  assert (E : upper_camel_case (chars x) = chars (camel x)) by (unfold camel; now rewrite list_ascii_of_string_of_list_ascii).
  rewrite E in S. cbn [In builtins map fst] in H.
  repeat (destruct H as [H|H]; [rewrite <- H in S; cbn in S; first [easy|exfalso; apply S; apply small_spec; reflexivity]|]). destruct H.
Qed.
Theorem file_meaning fl checks src f E : greturns (fun n => rpcgen n fl checks src) (GOk f) -> file_env f = Some E -> compiles f ->
  meaning (items_of f) = Some E.
Proof.
  intros R FE (ND & NW & _). destruct (imports R) as [IE IU]. apply rpcgen_runs in R as (n & ds & R). destruct (R n (le_n n)) as [_ G]. apply file_means; [| | |exact FE].
  - intros i I H. rewrite Forall_forall in NW. destruct (NW i I) as [_ T]. apply T. clear T NW. unfold taken.
    destruct H as [<-|[<-|[<-|H]]]; [cbn; tauto..|]. destruct (item_named G I) as (x & t & _ & E' & _). rewrite E' in *.
    rewrite (camel_builtin H). cbn. tauto.
  - exact ND.
  - split.
    + intros e I. apply IE. unfold enums. apply in_flat_map. exists (IEnum e). split; [exact I|now left].
    + intros u I. apply IU. unfold unions. apply in_flat_map. exists (IUnion u). split; [exact I|now left].
Qed.
Theorem printed_meaning fl checks src f E : greturns (fun n => rpcgen n fl checks src) (GOk f) -> file_env f = Some E -> compiles f ->
  exists items, read_rust (printed f) = Some items /\ meaning items = Some E.
Proof.
  intros R FE CO. exists (items_of f). split; [|exact (file_meaning R FE CO)].
  destruct (proj1 (rpcgen_parts fl checks src f) R) as (ds & _ & G). exact (generated_read (conj G FE) CO).
Qed.
Theorem program_speaks fl checks bs ds : let cfg := main_config fl checks in
  valid_utf8 bs -> denotes_text ds (text_of bs) -> definitions_ok cfg ds ->
  exists out items E, exits fl checks (Some bs) out 0 /\ read_rust (text_of out) = Some items /\ meaning items = Some E /\
    forall x td xval, first x (type_defs ds) td -> is_typedef td = false ->
      (forall y l, td = TdEnum y l -> enum_impl_std_trait cfg = false \/ dense ds l) ->
      xtype ds (union_impl_union cfg) (TsIdent x) xval -> exists y v, camel_of x y /\ speaks E (TRef y) v xval.
Proof.
  intros cfg V D W. destruct (c56 (c31 D) W) as (f & E & [G FE] & CO & S). pose proof (rpcgen_result D G) as R.
  destruct (printed_meaning R FE CO) as (items & RD & M). exists (bytes_of (printed f)), items, E.
  split; [exact (main_runs V R)|]. split; [now rewrite text_bytes|]. split; [exact M|exact S].
Qed.
