(** Model of rpcgen/src/keyword.rs. *)
From Verif Require Import Base.
Local Open Scope string_scope.

(** keyword.rs:4-61 *)
Definition KEYWORDS_RUST : list string :=
  ["as"; "async"; "await"; "break"; "const"; "continue"; "crate"; "dyn"; "else"; "enum";
   "extern"; "false"; "fn"; "for"; "if"; "impl"; "in"; "let"; "loop"; "match"; "mod"; "move";
   "mut"; "pub"; "ref"; "return"; "Self"; "self"; "static"; "struct"; "super"; "trait"; "true";
   "type"; "union"; "unsafe"; "use"; "where"; "while";
   "abstract"; "become"; "box"; "do"; "final"; "gen"; "macro"; "override"; "priv"; "try";
   "typeof"; "unsized"; "virtual"; "yield"].

(** keyword.rs:63-86 *)
Definition KEYWORDS_XDR : list string :=
  ["bool"; "case"; "const"; "default"; "double"; "quadruple"; "enum"; "float"; "hyper"; "int";
   "opaque"; "string"; "struct"; "switch"; "typedef"; "union"; "unsigned"; "void";
   "program"; "version"].

(** keyword.rs:88-94 *)
Definition rust_reserved (k : string) : bool := existsb (String.eqb k) KEYWORDS_RUST.
Definition xdr_reserved (k : string) : bool := existsb (String.eqb k) KEYWORDS_XDR.
