(** Concrete cases for the flags and translation (C116). *)
From Verif Require Import Base RustTypes Nom Keyword Ast ParserModel SpecGrammar SpecParse ParserLemmas ConstProofs CaseModel SpecCase RustAst GenModel SpecGen SpecItems GenFacts GenTotal GenPanic GenLemmas
  SpecTranslate TranslateUnion ExamplesGen ExamplesTranslate.
Local Open Scope string_scope.
Local Open Scope list_scope.

Lemma pets_gap : no_negative_gap pets.
Proof.
  intros x y l zs I V. repeat (destruct I as [I|I]; [try discriminate|]); [|destruct I].
  injection I as <- <- <-. inversion V as [|? z1 ? ? V1 V']; subst. inversion V' as [|? z2 ? ? V2 V'']; subst. inversion V''; subst.
  cbn [as_value] in V1, V2.
  assert (z1 = -1) as -> by (inversion V1 as [? ? S f| | |]; subst; exact (stands_fun S stands_m1)).
  assert (z2 = 2) as -> by (inversion V2 as [? ? S f| | |]; subst; exact (stands_fun S stands_2)).
  split; [cbn; repeat destruct Z.eq_dec; lia|]. intros z w [<-|[<-|[]]] [<-|[<-|[]]]; lia.
Qed.
Lemma pets_translated checks : exists f, greturns (fun n => rpcgen n (Flags false false false false) checks pets_text) (GOk f).
Proof.
  assert (K : exists f, gen_code 20 (main_config tool checks) pets = GOk f) by (destruct checks; eexists; vm_compute; reflexivity).
  destruct K as [f K]. exists f. apply greturns_bind with (a := pets); [exact pets_parses|].
  exact (by_gen K ltac:(discriminate)).
Qed.
Lemma pets_more : greturns (fun n => parse n pets_text) (GOk pets) /\ no_negative_gap pets /\
  exists f, greturns (fun n => rpcgen n (Flags false false false false) true pets_text) (GOk f).
Proof. split; [exact pets_parses|]. split; [exact pets_gap|]. apply pets_translated. Qed.

(** with a gap of negative numbers the flags do matter *)
Lemma gap_flags : (exists f, greturns (fun n => rpcgen n (Flags true false false false) true gap_text) (GOk f)) /\
  ~ exists f, greturns (fun n => rpcgen n (Flags false false false false) true gap_text) (GOk f).
Proof.
  destruct gap_case as (P & N). split.
  - assert (K : exists f, gen_code 20 (main_config (Flags true false false false) true) gap_file = GOk f) by (eexists; vm_compute; reflexivity).
    destruct K as [f K]. exists f. apply greturns_bind with (a := gap_file); [exact P|].
    exact (by_gen K ltac:(discriminate)).
  - rewrite (tool_translated tool true P). exact N.
Qed.
