(** C18, C36 and C37: exactly when the properties hold. *)
From Verif Require Import Base SerModel RustTypes DeModel SpecXdr SpecMisc Nom Ast ParserModel SpecGrammar
  SpecParse ParserLemmas ExamplesCodec ExamplesParser WrapProofs.
Local Open Scope string_scope.
Local Open Scope list_scope.

(** ** C18 length prefixes *)
(** Missing: the prefix is the length itself only below 2^32, which is the second theorem. *)
Theorem C18_wraps_partial : forall E t v b k, encodes E t v b -> wire_len t v = Some k ->
  exists w r, b = w ++ r /\ unsigned 4 (k mod 2 ^ 32) w.
Proof. exact prefix_wraps. Qed.
Print Assumptions C18_wraps_partial.
Theorem C18_exact_partial : forall E t v b k, encodes E t v b -> wire_len t v = Some k ->
  ((exists w r, b = w ++ r /\ unsigned 4 k w) <-> k < 2 ^ 32).
Proof. exact prefix_fits. Qed.
Print Assumptions C18_exact_partial.
Theorem C18_read_partial : forall E t i n v k, from_bytes n E t i = Ok v -> wire_len t v = Some k -> k < 2 ^ 32.
Proof. exact read_small. Qed.
Print Assumptions C18_read_partial.
Example C18_wraps_case : encodes [] TStr (RStr [x61]) [x00; x00; x00; x01; x61; x00; x00; x00] /\
  from_bytes 5 [] TStr [x00; x00; x00; x01; x61; x00; x00; x00] = Ok (RStr [x61]) /\
  wire_len TStr (RStr [x61]) = Some 1.
Proof. exact (conj (proj1 str_case) (conj eq_refl eq_refl)). Qed.

(** ** C36 type names *)
(** Missing: the names that are excluded on the right. *)
Theorem C36_exact_partial : forall T w x, good_name T -> good_name x -> spaces w -> w <> [] ->
  (greturns (fun n => parse n (typedef_text (chars T ++ w ++ chars x)))
            (GOk [DefType (TdDecl (DVariable (TsIdent T) x))])
   <-> strip (chars "void") (chars T) = None /\ ~ In T ["char"; "short"]).
Proof. exact type_name_exact. Qed.
Print Assumptions C36_exact_partial.
Example C36_exact_case : good_name "integer" /\ good_name "x" /\ spaces [" "%char] /\ [" "%char] <> [].
Proof. split; [now apply simple_name|]. split; [now apply simple_name|]. split; [repeat constructor|discriminate]. Qed.

(** ** C37 built-in types before an asterisk *)
(** Missing: built-in types that are not followed by white space. *)
Theorem C37_exact_partial : forall t u w x, builtin t u -> spaces w -> good_name x ->
  (greturns (fun n => parse n (typedef_text (u ++ w ++ chars "*" ++ chars x)))
            (GOk [DefType (TdDecl (DOption t x))])
   <-> w <> []).
Proof. exact pointer_exact. Qed.
Print Assumptions C37_exact_partial.
Example C37_exact_case : builtin (TsHyper false) (chars "unsigned" ++ [" "; " "]%char ++ chars "hyper") /\
  spaces [] /\ good_name "char".
Proof. split; [apply bi_uhyper; [repeat constructor|discriminate]|]. split; [constructor|now apply simple_name]. Qed.
