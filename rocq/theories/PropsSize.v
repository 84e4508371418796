(** Property theorems about the size of the generated code (C111). *)
From Verif Require Import Base RustTypes Nom Ast ParserModel SpecGrammar SpecParse RustAst GenModel SpecCodeSize SizeProofs ExamplesSize.
Local Open Scope string_scope.
Local Open Scope Z_scope.

(** ** C111 the generated code has no more parts than the interface file: false without flags *)
Theorem C111_size_refuted : exists source ds, length source = 26%nat /\ parse 26 source = GOk ds /\ defs_size ds = 1 /\
  forall n checks, exists f, gen_code n (main_config no_flags checks) ds = GOk f /\ 2147483647 <= code_size f.
Proof. exact size_explodes. Qed.
Print Assumptions C111_size_refuted.
(** without flags there is a variant for every number up to that of each enum member *)
Theorem C111_gaps : forall n cfg ds f x l a c z, enum_complement_index cfg = true -> gen_code n cfg ds = GOk f ->
  In (DefType (TdEnum x l)) ds -> In a l -> as_value a = VConst c -> good_constant c -> stands_for c z ->
  z + 1 <= code_size f.
Proof. exact gaps_filled. Qed.
Print Assumptions C111_gaps.
Example C111_case : length wide_text = 26%nat /\ parse 26 wide_text = GOk wide /\ defs_size wide = 1 /\
  forall n checks, exists f, gen_code n (main_config no_flags checks) wide = GOk f /\ 2147483647 <= code_size f.
Proof. exact wide_generated. Qed.

(** Missing: the default mode of enums or unions, which fills the gaps between the numbers.
    With flags for both the code has at most as many parts as the file. *)
Theorem C111_size_partial : forall n fl checks ds f, (use_std_trait fl || use_indexer fl = true)%bool ->
  (use_union fl || use_extra_trait fl || use_indexer fl = true)%bool ->
  gen_code n (main_config fl checks) ds = GOk f -> code_size f <= defs_size ds.
Proof. exact flags_bounded. Qed.
Print Assumptions C111_size_partial.
(** In every mode there are at most 2^32 parts for each part of the file. *)
Theorem C111_range_partial : forall n cfg ds f, gen_code n cfg ds = GOk f -> code_size f <= 2 ^ 32 * defs_size ds.
Proof. exact range_bounded. Qed.
Print Assumptions C111_range_partial.
Example C111_case_partial : parse 400 gap_text = GOk gap_defs /\ defs_size gap_defs = 9 /\
  gap_size (Flags false true true false) = Some 8 /\ gap_size no_flags = Some 1006.
Proof. exact gap_sizes. Qed.
