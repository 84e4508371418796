(** Specification vocabulary for the parser properties. *)
From Verif Require Import Base Nom Ast ParserModel SpecGrammar.
Local Open Scope string_scope.

(** [f] returns [r]: every large enough nesting bound gives [r] *)
Definition greturns {A} (f : nat -> gres A) (r : gres A) : Prop :=
  r <> GFuel /\ exists N, forall n, (N <= n)%nat -> f n = r.
Definition gdiverges {A} (f : nat -> gres A) : Prop := forall n, f n = GFuel.

(** ** Positional notation *)
Definition digit_chars : list (list ascii) :=
  [["0"]; ["1"]; ["2"]; ["3"]; ["4"]; ["5"]; ["6"]; ["7"]; ["8"]; ["9"];
   ["a"; "A"]; ["b"; "B"]; ["c"; "C"]; ["d"; "D"]; ["e"; "E"]; ["f"; "F"]]%char.
Definition digit (c : ascii) (d : Z) : Prop :=
  exists n l, nth_error digit_chars n = Some l /\ In c l /\ d = Z.of_nat n.

Inductive numeral (base : Z) : text -> Z -> Prop :=
| num_nil : numeral base [] 0
| num_snoc t v c d : numeral base t v -> digit c d -> d < base ->
    numeral base (t ++ [c]) (v * base + d).

(** the number a constant stands for *)
Inductive stands_for : constant -> Z -> Prop :=
| sf_decimal t z : numeral 10 t z -> stands_for (Decimal (str t)) z
| sf_negative t z : numeral 10 t z -> stands_for (Decimal (str ("-"%char :: t))) (- z)
| sf_hex t z : numeral 16 t z -> stands_for (Hex (str t)) z
| sf_octal t z : numeral 8 t z -> stands_for (Octal (str t)) z.

Definition fits (k : intkind) (z : Z) : Prop :=
  match k with
  | KI32 => -2147483648 <= z <= 2147483647
  | KU32 => 0 <= z <= 4294967295
  | KU64 | KUsize => 0 <= z <= 18446744073709551615
  end.

(** ** Sample declarations *)
(** [typedef <type> x;] *)
Definition typedef_text (t : text) : text := chars "typedef " ++ t ++ chars ";".

(** built-in types and their words *)
Inductive builtin : tyspec -> text -> Prop :=
| bi_int : builtin (TsInt true) (chars "int")
| bi_unsigned : builtin (TsInt false) (chars "unsigned")
| bi_uint w : spaces w -> w <> [] -> builtin (TsInt false) (chars "unsigned" ++ w ++ chars "int")
| bi_hyper : builtin (TsHyper true) (chars "hyper")
| bi_uhyper w : spaces w -> w <> [] -> builtin (TsHyper false) (chars "unsigned" ++ w ++ chars "hyper")
| bi_float : builtin TsFloat (chars "float")
| bi_double : builtin TsDouble (chars "double")
| bi_quadruple : builtin TsQuadruple (chars "quadruple")
| bi_bool : builtin TsBool (chars "bool").
