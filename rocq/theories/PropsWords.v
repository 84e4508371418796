(** Exactly when a generated type or constant is named by a Rust keyword (C69, C70). *)
From Verif Require Import Base Nom Ast ParserModel SpecGrammar SpecParse SpecCase RustAst GenModel SpecGen SpecItems SpecXdl GenSem SpecWords WordsProofs
  ExamplesGen ExamplesEmit.
Local Open Scope string_scope.

(** ** C69 *)
(** Of the definitions that become an item, one is called self up to underscores and case. *)
Theorem C69_exact_partial : forall cfg ds f, greturns (fun n => gen_code n cfg ds) (GOk f) ->
  ((exists i, In i (fi_types f) /\ In (item_name i) rust_words) <->
   (exists x t, In (x, t) (item_defs (remove_typedef cfg) ds) /\ self_name x)).
Proof. exact self_types_exact. Qed.
Print Assumptions C69_exact_partial.
Example C69_exact_case : (forall fl checks, exists f i,
  greturns (fun n => rpcgen n fl checks (chars "struct self { int a; };")) (GOk f) /\
  In i (fi_types f) /\ In (item_name i) rust_words) /\
  self_name "self" /\ self_name "_SELF__" /\ ~ self_name "selfish" /\ ~ self_name "SELF" /\ ~ self_name "se_lf".
Proof. exact (conj self_type self_cases). Qed.

(** ** C70 *)
Theorem C70_exact_partial : forall cfg ds f, greturns (fun n => gen_code n cfg ds) (GOk f) ->
  ((exists c, In c (fi_consts f) /\ In (co_name c) rust_words) <-> (exists x v, In (x, v) (const_defs ds) /\ In x rust_words)).
Proof. exact const_words_exact. Qed.
Print Assumptions C70_exact_partial.
Example C70_exact_case : forall fl checks, exists f c,
  greturns (fun n => rpcgen n fl checks (chars "const match = 3;")) (GOk f) /\
  In c (fi_consts f) /\ In (co_name c) rust_words.
Proof. exact match_const. Qed.
