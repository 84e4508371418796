(** Concrete case for the names of fields (C58). *)
From Verif Require Import Base Nom Keyword Ast ParserModel SpecGrammar SpecParse ParserLemmas CaseModel SpecCase CaseProofs RustAst GenModel SpecGen SpecItems GenFacts GenPanic GenLemmas ExamplesGen.
Local Open Scope string_scope.
Local Open Scope list_scope.

Lemma type_field : good_spec bare /\ greturns (fun n => gen_code n plain_config bare) (GOk (file_of plain_config bare)) /\
  In "type" rust_words /\ field_of bare "Type" /\ has_capital "Type" /\ snaked (chars "Type") (chars "type").
Proof.
  split; [exact (c34 bare_parses)|]. split; [apply (@by_gen 20); [vm_compute; reflexivity|easy]|]. split; [vm_compute; tauto|].
  split; [do 4 eexists; split; [vm_compute; left; reflexivity|]; split; [left; reflexivity|reflexivity]|].
  split; [exists "T"%char; vm_compute; tauto|]. now apply snake_exact.
Qed.
