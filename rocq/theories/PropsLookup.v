(** Property theorems about the work of the generator (C110). *)
From Verif Require Import Base RustTypes Nom Ast ParserModel RustAst GenModel SpecGen GenFacts LookupModel SpecLookup
  LookupProofs ExamplesLookup.
Local Open Scope string_scope.
Local Open Scope Z_scope.

(** ** C110 the time to generate code grows polynomially: false, no polynomial is enough *)
Theorem C110_polynomial_refuted : forall a k, 0 <= a -> 0 <= k -> exists ds r,
  forall n cfg, (value_count ds <= n)%nat ->
  gen_code n cfg ds = GErr r /\ a * Z.of_nat (value_count ds) ^ k < lookups n cfg ds.
Proof. exact generating_explodes. Qed.
Print Assumptions C110_polynomial_refuted.
(** every name that is both a constant and a member of an enum multiplies the lookups by 2 *)
Theorem C110_ladder : forall n cfg d, (1 <= d)%nat -> (d <= n)%nat ->
  gen_code n cfg (ladder d) = GErr (GNotFoundIdentifier (long_name d)) /\
  lookups n cfg (ladder d) = 2 ^ Z.of_nat d - 1.
Proof. exact ladder_lookups. Qed.
Print Assumptions C110_ladder.
Example C110_case :
  parse 400 (chars "const a = aa; const aa = aaa; const aaa = aaaa; enum e { a = aa, aa = aaa, aaa = aaaa };") = GOk (ladder 3) /\
  lookups 3 plain (ladder 3) = 7 /\ lookups 12 plain (ladder 12) = 4095.
Proof. exact ladder_read. Qed.

(** Missing: names that are both a constant and a member of an enum.  Without them the
    lookups are bounded by a polynomial. *)
Theorem C110_polynomial_partial : forall n cfg ds, one_scope ds -> gen_code n cfg ds <> GFuel ->
  lookups n cfg ds <= (Z.of_nat (value_count ds) + 1) ^ 2.
Proof. exact one_scope_bounded. Qed.
Print Assumptions C110_polynomial_partial.
Example C110_case_partial : parse 400 chain_text = GOk chain_defs /\ one_scope chain_defs /\
  (exists f, gen_code 5 plain chain_defs = GOk f) /\ lookups 5 plain chain_defs = 6 /\ value_count chain_defs = 6%nat.
Proof. exact chain_counted. Qed.
(** With them, the exponent is their number. *)
Theorem C110_doubles_partial : forall n cfg ds, gen_code n cfg ds <> GFuel ->
  lookups n cfg ds <= Z.of_nat (value_uses ds) *
    (2 ^ Z.of_nat (length (double_names ds)) * (Z.of_nat (length (value_names ds)) + 1)).
Proof. exact doubles_bounded. Qed.
Print Assumptions C110_doubles_partial.
Example C110_case_doubles : parse 400 costly_text = GOk costly_defs /\ (exists f, gen_code 6 plain costly_defs = GOk f) /\
  length (double_names costly_defs) = 4%nat /\ lookups 6 plain costly_defs = 22.
Proof. exact costly_counted. Qed.

(** Counting leaves the results as they are, and the number does not depend on the bound of
    the model. *)
Theorem C110_counting : forall cfg ds k n v,
  fst (l_resolve_value (ctx cfg ds) n k v) = resolve_value (ctx cfg ds) n k v.
Proof. exact value_fst. Qed.
Print Assumptions C110_counting.
Theorem C110_settled : forall cfg ds n m, (n <= m)%nat -> gen_code n cfg ds <> GFuel ->
  lookups m cfg ds = lookups n cfg ds.
Proof. exact lookups_settled. Qed.
Print Assumptions C110_settled.
