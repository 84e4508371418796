(** Property theorem about the gaps between case labels (C111). *)
From Verif Require Import Base RustTypes Nom Ast ParserModel SpecGrammar SpecParse RustAst GenModel SpecCodeSize SpecTranslate ExamplesSize GapProofs GapNames.
Local Open Scope string_scope.
Local Open Scope list_scope.
Local Open Scope Z_scope.

(** ** C111 *)
(** unless a flag for unions is given, there is a variant for every number up to that of each case label of a
    union that does not switch on bool *)
Theorem C111_union_gaps : forall n cfg ds f x ty sx specs dflt vs arm c z, union_complement_index cfg = true -> gen_code n cfg ds = GOk f ->
  In (DefType (TdUnion x (UBody (DVariable ty sx) specs dflt))) ds -> ty <> TsBool -> In (CaseSpec vs arm) specs -> In (VConst c) vs ->
  good_constant c -> stands_for c z -> z + 1 <= code_size f.
Proof. exact union_gaps_filled. Qed.
Print Assumptions C111_union_gaps.
Example C111_union_gaps_case : parse 100 arms_text = GOk arms /\ defs_size arms = 2 /\
  arms = [DefType (TdUnion "u" (UBody (DVariable (TsInt true) "k")
            [CaseSpec [VConst (Decimal "300")] DVoid; CaseSpec [VConst (Decimal "2")] (DVariable (TsInt true) "y")] None))] /\
  union_complement no_flags = true /\ arms_size no_flags = Some 301 /\ arms_size (Flags false true true false) = Some 2.
Proof. exact arms_case. Qed.

(** the same where numbers are given by names, which stand for numbers as in C115 *)
Theorem C111_enum_named_gaps : forall n cfg ds f x l a z, enum_complement_index cfg = true -> good_spec ds -> gen_code n cfg ds = GOk f ->
  In (DefType (TdEnum x l)) ds -> In a l -> number_is ds KI32 (as_value a) z -> z + 1 <= code_size f.
Proof. exact enum_named_gaps. Qed.
Print Assumptions C111_enum_named_gaps.
Theorem C111_union_named_gaps : forall n cfg ds f x ty sx specs dflt vs arm v z, union_complement_index cfg = true -> good_spec ds ->
  gen_code n cfg ds = GOk f -> In (DefType (TdUnion x (UBody (DVariable ty sx) specs dflt))) ds -> ty <> TsBool ->
  In (CaseSpec vs arm) specs -> In v vs -> number_is ds KU32 v z -> z + 1 <= code_size f.
Proof. exact union_named_gaps. Qed.
Print Assumptions C111_union_named_gaps.
Example C111_named_gaps_case : good_spec gap_defs /\ number_is gap_defs KU32 (VIdent "FAR") 500 /\ gap_size no_flags = Some 1006.
Proof. exact gap_named. Qed.
