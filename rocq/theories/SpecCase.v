(** Specification vocabulary for the name conversions of the code generator. *)
From Verif Require Import Base Nom.
Local Open Scope string_scope.

Definition capitals : text := chars "ABCDEFGHIJKLMNOPQRSTUVWXYZ".
Definition smalls : text := chars "abcdefghijklmnopqrstuvwxyz".
Definition numerals : text := chars "0123456789".
Definition underscore : ascii := "_".

(** the same letter as a small letter, as a capital *)
Definition swap_in (p : list (ascii * ascii)) (c : ascii) : ascii :=
  match find (fun p => Ascii.eqb c (fst p)) p with Some (_, d) => d | None => c end.
Definition small : ascii -> ascii := swap_in (combine capitals smalls).
Definition big : ascii -> ascii := swap_in (combine smalls capitals).

(** what remains of a name when underscores and case are ignored *)
Definition letters (t : text) : text :=
  map small (filter (fun c => negb (Ascii.eqb c underscore)) t).

Definition first_big (t : text) : text := match t with [] => [] | c :: t => big c :: t end.
Definition titled (t : text) : text := match t with [] => [] | c :: t => big c :: map small t end.

Fixpoint join (ps : list text) : text :=
  match ps with
  | [] => []
  | [p] => p
  | p :: ps => (p ++ underscore :: join ps)%list
  end.

(** a small letter or digit followed by a capital: a word starts there *)
Definition boundary (a b : ascii) : Prop := (In a smalls \/ In a numerals) /\ In b capitals.

(** [snaked_after p t u]: [u] is [t], which comes after the character [p], in
    small letters, with an underscore at every boundary *)
Inductive snaked_after : ascii -> text -> text -> Prop :=
| sn_nil p : snaked_after p [] []
| sn_word p c t u : boundary p c -> snaked_after c t u ->
    snaked_after p (c :: t) (underscore :: small c :: u)
| sn_letter p c t u : ~ boundary p c -> snaked_after c t u ->
    snaked_after p (c :: t) (small c :: u).
Inductive snaked : text -> text -> Prop :=
| sn_empty : snaked [] []
| sn_start c t u : snaked_after c t u -> snaked (c :: t) (small c :: u).

(** A_NAME_1: capitals and digits, every part beginning with a capital *)
Definition screaming_part (p : text) : Prop :=
  exists c t, p = c :: t /\ In c capitals /\ Forall (fun d => In d capitals \/ In d numerals) t.
Definition screaming (t : text) : Prop :=
  exists ps, ps <> [] /\ Forall screaming_part ps /\ t = join ps.

(** the words of the Rust reference (edition 2024) that cannot be used as a
    plain identifier: strict keywords, then reserved keywords *)
Definition rust_words : list string :=
  ["as"; "async"; "await"; "break"; "const"; "continue"; "crate"; "dyn"; "else"; "enum"; "extern";
   "false"; "fn"; "for"; "if"; "impl"; "in"; "let"; "loop"; "match"; "mod"; "move"; "mut"; "pub";
   "ref"; "return"; "self"; "Self"; "static"; "struct"; "super"; "trait"; "true"; "type"; "unsafe";
   "use"; "where"; "while";
   "abstract"; "become"; "box"; "do"; "final"; "gen"; "macro"; "override"; "priv"; "try"; "typeof";
   "unsized"; "virtual"; "yield"].
