(** Property theorems about the work of the parser (C109). *)
From Verif Require Import Base Nom Ast ParserModel CostModel SpecGrammar SpecCost CostLower CostUpper ExamplesCost.
Local Open Scope Z_scope.

(** ** C109 the time to read a file grows polynomially: false, no polynomial is enough *)
Theorem C109_polynomial_refuted : forall a k, 0 <= a -> 0 <= k -> exists input ds,
  forall n, (length input < n)%nat -> parse n input = GOk ds /\ a * Z.of_nat (length input) ^ k < steps n input.
Proof. exact reading_explodes. Qed.
Print Assumptions C109_polynomial_refuted.
(** every structure written inside another one multiplies the steps by 4 *)
Theorem C109_nested : forall d n, (length (nested_file d) < n)%nat ->
  parse n (nested_file d) = GOk (nested_defs d) /\ length (nested_file d) = (12 * d + 18)%nat /\
  4 ^ Z.of_nat (S d) <= steps n (nested_file d).
Proof. exact nested_counted. Qed.
Print Assumptions C109_nested.
Example C109_case : parse 3 (nested_file 3) = GFuel /\ parse 4 (nested_file 3) = GOk (nested_defs 3) /\
  steps 4 (nested_file 3) = 11233.
Proof. exact deep_counted. Qed.

(** Missing: structures and unions written where a type is used.  Without them the steps
    are bounded by a polynomial. *)
Theorem C109_polynomial_partial : forall n input, apart input -> (1 <= n)%nat ->
  steps n input <= 12000000 * (zlen input + 1) ^ 6.
Proof. exact apart_bounded. Qed.
Print Assumptions C109_polynomial_partial.
(** With them, the degree of the polynomial is the depth of the nesting. *)
Theorem C109_depth_partial : forall d n input, parse d input <> GFuel -> (d <= n)%nat ->
  steps n input <= 6000 * (zlen input + 1) ^ 5 * (2000 * (zlen input + 1)) ^ Z.of_nat d.
Proof. exact shallow_bounded. Qed.
Print Assumptions C109_depth_partial.
Example C109_case_partial : apart flat_text /\ parse 1 flat_text = parse 400 flat_text /\ steps 400 flat_text = 647.
Proof. exact flat_counted. Qed.

(** Counting leaves the results of the parser as they are, and the number does not depend on
    the bound of the model. *)
Theorem C109_counting : forall n input, fst (c_specification n input) = specification n input.
Proof. exact counting_faithful. Qed.
Print Assumptions C109_counting.
Theorem C109_settled : forall n m input, (length input < n)%nat -> (length input < m)%nat ->
  steps n input = steps m input.
Proof. exact counted_settled. Qed.
Print Assumptions C109_settled.
Example C109_case_settled : (length flat_text < 400)%nat /\ steps 400 flat_text = 647.
Proof. exact flat_settled. Qed.
