(** Reading Rust: a lexer, token trees and a parser for the part of the Rust
    grammar that type definitions with simple impls use.  It knows nothing of
    rpcgen.  Text outside of this part is refused; text that is accepted has
    the meaning that the Rust reference gives it. *)
From Verif Require Import Base Nom SpecCase.
Local Open Scope string_scope.
Local Open Scope list_scope.

(** ** Lexical structure *)
Inductive bracket := BRound | BSquare | BCurly.

Inductive lexeme :=
| LWord (x : string)                     (* identifier or keyword *)
| LRaw (x : string)                      (* r#x *)
| LInt (z : Z) (suffix : string)
| LStr (t : string)
| LLife (x : string)                     (* 'x *)
| LOp (s : string)
| LOpen (b : bracket)
| LClose (b : bracket).

Definition word_start (c : ascii) : bool := is_alpha c || Ascii.eqb c "_".
Definition word_char (c : ascii) : bool := is_alphanum c || Ascii.eqb c "_".

(** operators, the longest first *)
Definition operators : list string :=
  ["<<="; ">>="; "..."; "..=";
   "::"; "->"; "=>"; "=="; "!="; "<="; ">="; "&&"; "||"; "<<"; ">>"; "..";
   "+="; "-="; "*="; "/="; "%="; "^="; "&="; "|=";
   "+"; "-"; "*"; "/"; "%"; "^"; "!"; "&"; "|"; "="; "<"; ">"; "@"; "."; ","; ";"; ":"; "#"; "$"; "?"; "~"].
Fixpoint first_operator (l : list string) (t : text) : option (string * text) :=
  match l with
  | [] => None
  | s :: l => match strip (chars s) t with Some r => Some (s, r) | None => first_operator l t end
  end.

Definition suffixes : list string :=
  [""; "u8"; "u16"; "u32"; "u64"; "u128"; "usize"; "i8"; "i16"; "i32"; "i64"; "i128"; "isize"].

Definition digit_value (c : ascii) : Z := code c - 48.
Definition number (t : text) : Z := fold_left (fun a c => 10 * a + digit_value c)%Z t 0%Z.

Definition starts (f : ascii -> bool) (t : text) : bool :=
  match t with c :: _ => f c | [] => false end.
Definition quote_char (c : ascii) : bool :=
  Ascii.eqb c """" || Ascii.eqb c "'" || Ascii.eqb c "#".

Definition bracket_char (c : ascii) : option lexeme :=
  if Ascii.eqb c "(" then Some (LOpen BRound) else if Ascii.eqb c ")" then Some (LClose BRound)
  else if Ascii.eqb c "[" then Some (LOpen BSquare) else if Ascii.eqb c "]" then Some (LClose BSquare)
  else if Ascii.eqb c "{" then Some (LOpen BCurly) else if Ascii.eqb c "}" then Some (LClose BCurly)
  else None.

(** the first lexeme ([None] for white space) and what follows; comments,
    characters, floating point numbers, escapes and prefixed literals are
    refused *)
Definition next_lexeme (t : text) : option (option lexeme * text) :=
  match t with
  | [] => None
  | c :: t' =>
      if is_space c then Some (None, t')
      else if word_start c then
        let '(x, r) := span word_char t in
        match strip (chars "#") r with
        | Some r' =>
            if String.eqb (str x) "r" && starts word_start r' then
              let '(y, r'') := span word_char r' in
              if existsb (String.eqb (str y)) ["_"; "self"; "Self"; "super"; "crate"] then None
              else Some (Some (LRaw (str y)), r'')
            else None
        | None => if starts quote_char r then None else Some (Some (LWord (str x)), r)
        end
      else if is_digit c then
        let '(d, r) := span is_digit t in
        let '(s, r') := span word_char r in
        if existsb (String.eqb (str s)) suffixes && negb (starts (fun c => quote_char c || Ascii.eqb c ".") r')
        then Some (Some (LInt (number d) (str s)), r') else None
      else if Ascii.eqb c """" then
        let '(s, r) := span (fun c => negb (Ascii.eqb c """" || Ascii.eqb c "\")) t' in
        match strip (chars """") r with Some r' => Some (Some (LStr (str s)), r') | None => None end
      else if Ascii.eqb c "'" then
        if starts word_start t' then
          let '(x, r) := span word_char t' in
          if starts quote_char r then None else Some (Some (LLife (str x)), r)
        else None
      else
        match bracket_char c with
        | Some l => Some (Some l, t')
        | None =>
            if match strip (chars "//") t, strip (chars "/*") t with None, None => false | _, _ => true end
            then None
            else match first_operator operators t with
                 | Some (s, r) => Some (Some (LOp s), r)
                 | None => None
                 end
        end
  end.

(** [n] bounds the number of lexemes *)
Fixpoint lex (n : nat) (t : text) : option (list lexeme) :=
  match t with
  | [] => Some []
  | _ =>
      match n with
      | O => None
      | S n =>
          match next_lexeme t with
          | Some (Some l, r) => option_map (cons l) (lex n r)
          | Some (None, r) => lex n r
          | None => None
          end
      end
  end.

(** ** Token trees *)
Inductive tree := Leaf (l : lexeme) | Node (b : bracket) (ts : list tree).

Definition bracket_eqb (a b : bracket) : bool :=
  match a, b with BRound, BRound | BSquare, BSquare | BCurly, BCurly => true | _, _ => false end.

(** the brackets that are open, each with the trees before it (last first);
    then the trees of the innermost one *)
Fixpoint nest (open : list (bracket * list tree)) (done : list tree) (ls : list lexeme)
    : option (list tree) :=
  match ls with
  | [] => match open with [] => Some (rev done) | _ => None end
  | LOpen b :: ls => nest ((b, done) :: open) [] ls
  | LClose b :: ls =>
      match open with
      | (b', before) :: open =>
          if bracket_eqb b b' then nest open (Node b (rev done) :: before) ls else None
      | [] => None
      end
  | l :: ls => nest open (Leaf l :: done) ls
  end.

Fixpoint tree_size (t : tree) : nat :=
  match t with
  | Leaf _ => 1
  | Node _ ts => S (S ((fix all ts := match ts with [] => O | t :: ts => (tree_size t + all ts)%nat end) ts))
  end.
Definition forest_size (ts : list tree) : nat := fold_right (fun t n => tree_size t + n)%nat O ts.

(** ** Syntax *)
(** [::a::b::c] or [a::b::c] *)
Record path := Path { pa_global : bool; pa_names : list string }.

Inductive stype :=
| SyPath (p : path) (args : list stype)          (* a::b<t, u> *)
| SyRef (lifetime : option string) (t : stype)   (* &'x t *)
| SyArray (t : stype) (len : sexpr)              (* [t; len] *)
with sexpr :=
| SeInt (z : Z) (suffix : string)
| SeBool (b : bool)
| SePath (p : path)
| SeNeg (e : sexpr)
| SeRef (e : sexpr)
| SeCall (p : path) (args : list sexpr)          (* p(a, b) *)
| SeMacro (x : string) (body : list tree)        (* x!(..) *)
| SeMatch (e : sexpr) (arms : list (spat * sexpr))
| SeCast (e : sexpr) (t : stype)                 (* e as t *)
with spat :=
| SpWild
| SpInt (z : Z) (suffix : string)                (* the sign is part of z *)
| SpBool (b : bool)
| SpPath (p : path)
| SpTuple (p : path) (ps : list spat).

Inductive meta := MeWord (x : string) | MeValue (x s : string).
Record sattr := Attr { sa_name : string; sa_args : list meta }.   (* #[x(a, b = "c")] *)

Record sfield := SField { sf_attrs : list sattr; sf_pub : bool; sf_name : string; sf_type : stype }.
Record svariant := SVariant
  { sv_attrs : list sattr; sv_name : string; sv_fields : option (list stype); sv_value : option sexpr }.

Inductive param := PaSelf (* &self *) | PaTyped (x : string) (t : stype).
Inductive member :=
| MbType (x : string) (t : stype)
| MbFn (x : string) (ps : list param) (ret : stype) (body : sexpr).

Inductive sitem :=
| SiUse (prefix : list string) (names : list string)       (* use a::b::{x, y}; or use a::x; *)
| SiConst (pub : bool) (x : string) (t : stype) (e : sexpr)
| SiType (pub : bool) (x : string) (t : stype)
| SiEnum (attrs : list sattr) (pub : bool) (x : string) (vs : list svariant)
| SiStruct (attrs : list sattr) (pub : bool) (x : string) (fs : list sfield)
| SiImpl (tr : stype) (t : stype) (ms : list member).

(** ** Parser *)
Definition parser (A : Type) := list tree -> option (A * list tree).

Notation "'let?' p := e 'in' f" := (match e with Some p => f | _ => None end)
  (at level 200, p pattern, right associativity).

Definition op (s : string) (ts : list tree) : option (list tree) :=
  match ts with
  | Leaf (LOp s') :: r => if String.eqb s s' then Some r else None
  | _ => None
  end.
Definition kw (s : string) (ts : list tree) : option (list tree) :=
  match ts with
  | Leaf (LWord s') :: r => if String.eqb s s' then Some r else None
  | _ => None
  end.
Definition plain_word (x : string) : bool := negb (existsb (String.eqb x) ("_" :: rust_words)).
Definition name : parser string := fun ts =>
  match ts with
  | Leaf (LWord x) :: r => if plain_word x then Some (x, r) else None
  | Leaf (LRaw x) :: r => Some (x, r)
  | _ => None
  end.
(** the first name of a path *)
Definition head_name : parser string := fun ts =>
  match ts with
  | Leaf (LWord x) :: r =>
      if plain_word x || existsb (String.eqb x) ["self"; "Self"; "super"; "crate"] then Some (x, r) else None
  | Leaf (LRaw x) :: r => Some (x, r)
  | _ => None
  end.

(** [::a::b] as often as it goes *)
Fixpoint more_names (ts : list tree) : list string * list tree :=
  match ts with
  | Leaf (LOp s) :: Leaf (LWord x) :: r =>
      if String.eqb s "::" && plain_word x then let '(xs, r) := more_names r in (x :: xs, r) else ([], ts)
  | Leaf (LOp s) :: Leaf (LRaw x) :: r =>
      if String.eqb s "::" then let '(xs, r) := more_names r in (x :: xs, r) else ([], ts)
  | _ => ([], ts)
  end.
Definition get_path : parser path := fun ts =>
  match op "::" ts with
  | Some r =>
      let? (x, r) := name r in let '(xs, r) := more_names r in Some (Path true (x :: xs), r)
  | None =>
      let? (x, r) := head_name ts in let '(xs, r) := more_names r in Some (Path false (x :: xs), r)
  end.

(** a comma separated list that ends with the bracket; a comma may follow the
    last element *)
Fixpoint separated (n : nat) {A} (p : parser A) (ts : list tree) : option (list A) :=
  match ts with
  | [] => Some []
  | _ =>
      match n with
      | O => None
      | S n =>
          match p ts with
          | Some (a, []) => Some [a]
          | Some (a, r) => let? r := op "," r in option_map (cons a) (separated n p r)
          | None => None
          end
      end
  end.
Definition list_of {A} (p : parser A) (ts : list tree) : option (list A) := separated (length ts) p ts.

(** repeat to the end *)
Fixpoint many (n : nat) {A} (p : parser A) (ts : list tree) : option (list A) :=
  match ts with
  | [] => Some []
  | _ =>
      match n with
      | O => None
      | S n => let? (a, r) := p ts in option_map (cons a) (many n p r)
      end
  end.

(** [t, u>] *)
Fixpoint type_args (n : nat) {A} (p : parser A) : parser (list A) := fun ts =>
  match n with
  | O => None
  | S n =>
      let? (a, r) := p ts in
      match op ">" r with
      | Some r => Some ([a], r)
      | None => let? r := op "," r in let? (l, r) := type_args n p r in Some (a :: l, r)
      end
  end.

Definition get_int : parser (Z * string) := fun ts =>
  match ts with Leaf (LInt z s) :: r => Some ((z, s), r) | _ => None end.
Definition get_bool : parser bool := fun ts =>
  match kw "true" ts with
  | Some r => Some (true, r)
  | None => let? r := kw "false" ts in Some (false, r)
  end.

(** [n] bounds the nesting *)
Fixpoint get_pat (n : nat) : parser spat := fun ts =>
  match n with
  | O => None
  | S n =>
      match kw "_" ts with Some r => Some (SpWild, r) | None =>
      match op "-" ts with
      | Some r => let? ((z, s), r) := get_int r in Some (SpInt (- z) s, r)
      | None =>
      match get_int ts with Some ((z, s), r) => Some (SpInt z s, r) | None =>
      match get_bool ts with Some (b, r) => Some (SpBool b, r) | None =>
      match get_path ts with
      | Some (p, Node BRound inner :: r) =>
          let? ps := list_of (get_pat n) inner in Some (SpTuple p ps, r)
      | Some (p, r) => Some (SpPath p, r)
      | None => None
      end end end end end
  end.

Fixpoint get_type (n : nat) : parser stype := fun ts =>
  match n with
  | O => None
  | S n =>
      match op "&" ts with
      | Some (Leaf (LLife x) :: r) => let? (t, r) := get_type n r in Some (SyRef (Some x) t, r)
      | Some r => let? (t, r) := get_type n r in Some (SyRef None t, r)
      | None =>
      match ts with
      | Node BSquare inner :: r =>
          let? (t, i) := get_type n inner in
          let? i := op ";" i in
          let? (e, []) := get_expr n i in
          Some (SyArray t e, r)
      | _ =>
          let? (p, r) := get_path ts in
          match op "<" r with
          | Some r => let? (l, r) := type_args n (get_type n) r in Some (SyPath p l, r)
          | None => Some (SyPath p [], r)
          end
      end end
  end
(** an operand, then perhaps [as t] *)
with get_expr (n : nat) : parser sexpr := fun ts =>
  match n with
  | O => None
  | S n =>
      let? (e, r) := get_operand n ts in
      match kw "as" r with
      | Some r => let? (t, r) := get_type n r in Some (SeCast e t, r)
      | None => Some (e, r)
      end
  end
with get_operand (n : nat) : parser sexpr := fun ts =>
  match n with
  | O => None
  | S n =>
      match op "-" ts with
      | Some r => let? (e, r) := get_operand n r in Some (SeNeg e, r)
      | None =>
      match op "&" ts with
      | Some r => let? (e, r) := get_operand n r in Some (SeRef e, r)
      | None =>
      match get_int ts with Some ((z, s), r) => Some (SeInt z s, r) | None =>
      match get_bool ts with Some (b, r) => Some (SeBool b, r) | None =>
      match kw "match" ts with
      | Some r =>
          let? (e, Node BCurly inner :: r) := get_expr n r in
          let? arms := list_of (fun ts => let? (p, r) := get_pat n ts in
                                          let? r := op "=>" r in
                                          let? (e, r) := get_expr n r in Some ((p, e), r)) inner in
          Some (SeMatch e arms, r)
      | None =>
      match get_path ts with
      | Some (p, Node BRound inner :: r) =>
          let? l := list_of (get_expr n) inner in Some (SeCall p l, r)
      | Some (p, r) =>
          match op "!" r with
          | Some (Node BRound inner :: r) =>
              match p with Path false [x] => Some (SeMacro x inner, r) | _ => None end
          | _ => Some (SePath p, r)
          end
      | None => None
      end end end end end end
  end.

Definition get_meta : parser meta := fun ts =>
  let? (x, r) := name ts in
  match op "=" r with
  | Some r => let? Leaf (LStr s) :: r := Some r in Some (MeValue x s, r)
  | None => Some (MeWord x, r)
  end.
Definition get_attr : parser sattr := fun ts =>
  let? Node BSquare inner :: r := op "#" ts in
  let? (x, [Node BRound args]) := name inner in
  let? l := list_of get_meta args in
  Some (Attr x l, r).
(** as often as it goes *)
Fixpoint get_attrs (n : nat) : parser (list sattr) := fun ts =>
  match n with
  | O => None
  | S n =>
      match op "#" ts with
      | None => Some ([], ts)
      | Some _ => let? (a, r) := get_attr ts in let? (l, r) := get_attrs n r in Some (a :: l, r)
      end
  end.
Definition attrs : parser (list sattr) := fun ts => get_attrs (S (length ts)) ts.
Definition get_vis (ts : list tree) : bool * list tree :=
  match kw "pub" ts with Some r => (true, r) | None => (false, ts) end.

(** [n] bounds the nesting of the types and expressions *)
Definition get_field (n : nat) : parser sfield := fun ts =>
  let? (a, r) := attrs ts in
  let '(v, r) := get_vis r in
  let? (x, r) := name r in
  let? r := op ":" r in
  let? (t, r) := get_type n r in
  Some (SField a v x t, r).
Definition get_variant (n : nat) : parser svariant := fun ts =>
  let? (a, r) := attrs ts in
  let? (x, r) := name r in
  match r with
  | Node BRound inner :: r =>
      let? l := list_of (get_type n) inner in Some (SVariant a x (Some l) None, r)
  | _ =>
      match op "=" r with
      | Some r => let? (e, r) := get_expr n r in Some (SVariant a x None (Some e), r)
      | None => Some (SVariant a x None None, r)
      end
  end.
Definition get_param (n : nat) : parser param := fun ts =>
  match op "&" ts with
  | Some r => let? r := kw "self" r in Some (PaSelf, r)
  | None =>
      let? (x, r) := name ts in
      let? r := op ":" r in
      let? (t, r) := get_type n r in
      Some (PaTyped x t, r)
  end.
Definition get_member (n : nat) : parser member := fun ts =>
  match kw "type" ts with
  | Some r =>
      let? (x, r) := name r in
      let? r := op "=" r in
      let? (t, r) := get_type n r in
      let? r := op ";" r in
      Some (MbType x t, r)
  | None =>
      let? r := kw "fn" ts in
      let? (x, Node BRound ps :: r) := name r in
      let? ps := list_of (get_param n) ps in
      let? r := op "->" r in
      let? (t, Node BCurly body :: r) := get_type n r in
      let? (e, []) := get_expr n body in
      Some (MbFn x ps t e, r)
  end.

(** a::b, x of a::b::x *)
Fixpoint unsnoc (l : list string) : option (list string * string) :=
  match l with
  | [] => None
  | [x] => Some ([], x)
  | x :: l => let? (p, y) := unsnoc l in Some (x :: p, y)
  end.

Definition get_use : parser sitem := fun ts =>
  let? (Path false p, r) := get_path ts in
  match op "::" r with
  | Some r =>
      let? Node BCurly inner :: r := Some r in
      let? l := list_of name inner in
      let? r := op ";" r in
      Some (SiUse p l, r)
  | None =>
      let? r := op ";" r in
      let? (p, x) := unsnoc p in
      Some (SiUse p [x], r)
  end.
Definition get_impl (n : nat) : parser sitem := fun ts =>
  let? (tr, r) := get_type n ts in
  let? r := kw "for" r in
  let? (t, Node BCurly inner :: r) := get_type n r in
  let? ms := many (length inner) (get_member n) inner in
  Some (SiImpl tr t ms, r).
Definition get_enum (n : nat) (a : list sattr) (v : bool) : parser sitem := fun ts =>
  let? (x, Node BCurly inner :: r) := name ts in
  let? l := list_of (get_variant n) inner in
  Some (SiEnum a v x l, r).
Definition get_struct (n : nat) (a : list sattr) (v : bool) : parser sitem := fun ts =>
  let? (x, Node BCurly inner :: r) := name ts in
  let? l := list_of (get_field n) inner in
  Some (SiStruct a v x l, r).
Definition get_alias (n : nat) (v : bool) : parser sitem := fun ts =>
  let? (x, r) := name ts in
  let? r := op "=" r in
  let? (t, r) := get_type n r in
  let? r := op ";" r in
  Some (SiType v x t, r).
Definition get_const (n : nat) (v : bool) : parser sitem := fun ts =>
  let? (x, r) := name ts in
  let? r := op ":" r in
  let? (t, r) := get_type n r in
  let? r := op "=" r in
  let? (e, r) := get_expr n r in
  let? r := op ";" r in
  Some (SiConst v x t e, r).

(** attributes only before enums and structs *)
Definition get_item (n : nat) : parser sitem := fun ts =>
  match kw "use" ts with Some r => get_use r | None =>
  match kw "impl" ts with Some r => get_impl n r | None =>
  let? (a, r) := attrs ts in
  let '(v, r) := get_vis r in
  match kw "enum" r with Some r => get_enum n a v r | None =>
  match kw "struct" r with Some r => get_struct n a v r | None =>
  match a with
  | _ :: _ => None
  | [] =>
      match kw "type" r with Some r => get_alias n v r | None =>
      let? r := kw "const" r in get_const n v r
      end
  end end end end end.

(** ** A whole file *)
Definition read_trees (t : text) : option (list tree) :=
  let? ls := lex (length t) t in nest [] [] ls.
Definition read_rust (t : text) : option (list sitem) :=
  let? ts := read_trees t in
  many (length ts) (get_item (S (S (S (2 * forest_size ts))))) ts.
