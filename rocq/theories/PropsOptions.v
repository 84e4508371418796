(** Property theorems about flags, overflow checks and whether a file is translated (C116). *)
From Verif Require Import Base Nom Keyword Ast ParserModel SpecGrammar SpecParse CaseModel SpecCase RustAst GenModel SpecGen SpecTranslate OptionsProofs ExamplesTranslate ExamplesOptions.
Local Open Scope string_scope.
Local Open Scope list_scope.

(** ** C116 flags do not stop a file from being translated *)
Theorem C116_more_flags : forall fl checks t ds, greturns (fun n => parse n t) (GOk ds) ->
  (exists f, greturns (fun n => rpcgen n (Flags false false false false) checks t) (GOk f)) ->
  exists f, greturns (fun n => rpcgen n fl checks t) (GOk f).
Proof. exact flags_more. Qed.
Print Assumptions C116_more_flags.

Theorem C116_any_flags : forall fl fl' checks t ds, greturns (fun n => parse n t) (GOk ds) -> no_negative_gap ds ->
  (exists f, greturns (fun n => rpcgen n fl checks t) (GOk f)) <->
  exists f, greturns (fun n => rpcgen n fl' checks t) (GOk f).
Proof. exact flags_same. Qed.
Print Assumptions C116_any_flags.

Theorem C116_unchecked : forall fl t f, greturns (fun n => rpcgen n fl true t) (GOk f) ->
  greturns (fun n => rpcgen n fl false t) (GOk f).
Proof. exact checks_same. Qed.
Print Assumptions C116_unchecked.

Example C116_case : greturns (fun n => parse n pets_text) (GOk pets) /\ no_negative_gap pets /\
  exists f, greturns (fun n => rpcgen n (Flags false false false false) true pets_text) (GOk f).
Proof. exact pets_more. Qed.
(** the premise of the second theorem is needed *)
Example C116_case_gap : (exists f, greturns (fun n => rpcgen n (Flags true false false false) true gap_text) (GOk f)) /\
  ~ exists f, greturns (fun n => rpcgen n (Flags false false false false) true gap_text) (GOk f).
Proof. exact gap_flags. Qed.
