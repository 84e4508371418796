(** Model of the nom 8 functions used by rpcgen/src/parser.rs:3-14, on complete
    input.  A text is the list of its bytes: every nom function used here looks
    at ASCII characters only, and no ASCII byte occurs inside a multi-byte
    UTF-8 character.  All errors are recoverable ([Err::Error]) and only the
    fact that there is one matters. *)
From Coq Require Export Ascii.
From Verif Require Import Base.
Set Implicit Arguments.

Notation text := (list ascii).
Notation chars := list_ascii_of_string.
Notation str := string_of_list_ascii.

(** [PFuel]: the bound on the nesting depth was reached (no Rust counterpart). *)
Inductive pres (A : Type) := POk (a : A) (rest : text) | PErr | PFuel.
Arguments POk {A} _ _.
Arguments PErr {A}.
Arguments PFuel {A}.

Notation nparser A := (text -> pres A).

Definition pbind {A B} (p : nparser A) (f : A -> nparser B) : nparser B := fun i =>
  match p i with POk a r => f a r | PErr => PErr | PFuel => PFuel end.

Definition pret {A} (a : A) : nparser A := fun i => POk a i.

(** ** Characters *)
Definition code (c : ascii) : Z := Z.of_N (N_of_ascii c).
Definition is_space (c : ascii) : bool :=           (* ' ' '\t' '\n' '\r' *)
  let z := code c in (z =? 32) || (z =? 9) || (z =? 10) || (z =? 13).
Definition is_digit (c : ascii) : bool := (48 <=? code c) && (code c <=? 57).
Definition is_oct (c : ascii) : bool := (48 <=? code c) && (code c <=? 55).
Definition is_upper (c : ascii) : bool := (65 <=? code c) && (code c <=? 90).
Definition is_lower (c : ascii) : bool := (97 <=? code c) && (code c <=? 122).
Definition is_alpha (c : ascii) : bool := is_upper c || is_lower c.
Definition is_alphanum (c : ascii) : bool := is_alpha c || is_digit c.
Definition is_hex (c : ascii) : bool :=
  is_digit c || ((65 <=? code c) && (code c <=? 70)) || ((97 <=? code c) && (code c <=? 102)).

(** ** bytes::complete, character::complete *)
Fixpoint strip (s i : text) : option text :=
  match s, i with
  | [], _ => Some i
  | c :: s, d :: i => if Ascii.eqb c d then strip s i else None
  | _ :: _, [] => None
  end.

(** [tag(s)] *)
Definition tag (s : string) : nparser unit := fun i =>
  match strip (chars s) i with Some r => POk tt r | None => PErr end.

Fixpoint span (f : ascii -> bool) (i : text) : text * text :=
  match i with
  | [] => ([], [])
  | c :: t => if f c then let '(a, b) := span f t in (c :: a, b) else ([], i)
  end.

Definition take_while0 (f : ascii -> bool) : nparser text := fun i =>
  let '(a, b) := span f i in POk a b.
Definition take_while1 (f : ascii -> bool) : nparser text := fun i =>
  match span f i with
  | ([], _) => PErr
  | (a, b) => POk a b
  end.

Definition multispace0 : nparser text := take_while0 is_space.
Definition multispace1 : nparser text := take_while1 is_space.
Definition alpha1 : nparser text := take_while1 is_alpha.
Definition alphanumeric1 : nparser text := take_while1 is_alphanum.
Definition digit1 : nparser text := take_while1 is_digit.
Definition hex_digit1 : nparser text := take_while1 is_hex.
Definition oct_digit1 : nparser text := take_while1 is_oct.

(** [one_of(s)] *)
Definition one_of (s : string) : nparser ascii := fun i =>
  match i with
  | c :: r => if existsb (Ascii.eqb c) (chars s) then POk c r else PErr
  | [] => PErr
  end.

(** [take_until(s)]: up to the first occurrence of s, which is left *)
Fixpoint take_until (s : string) (i : text) : pres text :=
  match strip (chars s) i with
  | Some _ => POk [] i
  | None =>
      match i with
      | [] => PErr
      | c :: t => match take_until s t with
                  | POk a r => POk (c :: a) r
                  | PErr => PErr
                  | PFuel => PFuel
                  end
      end
  end.

Definition is_eol (c : ascii) : bool := (code c =? 10) || (code c =? 13).
Definition lf : ascii := "010"%char.
Definition cr : ascii := "013"%char.

(** [not_line_ending]: up to the first '\n' or '\r'; an error when that is a
    '\r' not followed by '\n' *)
Definition not_line_ending : nparser text := fun i =>
  let '(a, b) := span (fun c => negb (is_eol c)) i in
  match b with
  | [] => POk a b
  | c :: r =>
      if Ascii.eqb c cr then
        match r with
        | d :: _ => if Ascii.eqb d lf then POk a b else PErr
        | [] => PErr
        end
      else POk a b
  end.

(** [line_ending]: "\n" or "\r\n" *)
Definition line_ending : nparser unit := fun i =>
  match i with
  | c :: r =>
      if Ascii.eqb c lf then POk tt r
      else if Ascii.eqb c cr then
        match r with
        | d :: r => if Ascii.eqb d lf then POk tt r else PErr
        | [] => PErr
        end
      else PErr
  | [] => PErr
  end.

(** ** combinator, sequence *)
Definition pmap {A B} (p : nparser A) (f : A -> B) : nparser B :=
  pbind p (fun a => pret (f a)).
Definition pair {A B} (p : nparser A) (q : nparser B) : nparser (A * B) :=
  pbind p (fun a => pbind q (fun b => pret (a, b))).
Definition preceded {A B} (p : nparser A) (q : nparser B) : nparser B :=
  pbind p (fun _ => q).
Definition terminated {A B} (p : nparser A) (q : nparser B) : nparser A :=
  pbind p (fun a => pbind q (fun _ => pret a)).
Definition delimited {A B C} (p : nparser A) (q : nparser B) (s : nparser C) : nparser B :=
  preceded p (terminated q s).

Definition opt {A} (p : nparser A) : nparser (option A) := fun i =>
  match p i with
  | POk a r => POk (Some a) r
  | PErr => POk None i
  | PFuel => PFuel
  end.

Definition peek {A} (p : nparser A) : nparser A := fun i =>
  match p i with POk a _ => POk a i | PErr => PErr | PFuel => PFuel end.

(** the text that [p] consumed *)
Definition recognize {A} (p : nparser A) : nparser text := fun i =>
  match p i with
  | POk _ r => POk (firstn (length i - length r) i) r
  | PErr => PErr
  | PFuel => PFuel
  end.

Definition verify {A} (p : nparser A) (f : A -> bool) : nparser A := fun i =>
  match p i with
  | POk a r => if f a then POk a r else PErr
  | PErr => PErr
  | PFuel => PFuel
  end.

(** ** branch *)
Definition por {A} (p q : nparser A) : nparser A := fun i =>
  match p i with PErr => q i | x => x end.
Definition pfail {A} : nparser A := fun _ => PErr.
Definition alt {A} (l : list (nparser A)) : nparser A := fold_right por pfail l.

(** ** multi

    An iteration that succeeds without consuming input is an error.  The
    number of iterations is at most the length of the text. *)
Fixpoint many0_n {A} (n : nat) (p : nparser A) (i : text) : pres (list A) :=
  match n with
  | O => PFuel
  | S n =>
      match p i with
      | PErr => POk [] i
      | PFuel => PFuel
      | POk a r =>
          if Nat.eqb (length r) (length i) then PErr
          else match many0_n n p r with
               | POk l r => POk (a :: l) r
               | PErr => PErr
               | PFuel => PFuel
               end
      end
  end.

Definition many0 {A} (p : nparser A) : nparser (list A) := fun i => many0_n (S (length i)) p i.

Definition many1 {A} (p : nparser A) : nparser (list A) :=
  pbind p (fun a => pmap (many0 p) (cons a)).

(** [separated_list1(sep, p)]: a separator that is not followed by an element
    is left *)
Definition separated_list1 {A B} (sep : nparser B) (p : nparser A) : nparser (list A) :=
  pbind p (fun a => pmap (many0 (preceded sep p)) (cons a)).
