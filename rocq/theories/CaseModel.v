(** Model of the name conversions of rpcgen/src/gen_code.rs:898-980.  Names are
    texts over ASCII: identifiers come from the parser. *)
From Verif Require Import Base Nom.

(** u8/char::to_ascii_uppercase, to_ascii_lowercase *)
Definition upper (c : ascii) : ascii :=
  if is_lower c then ascii_of_N (Z.to_N (code c - 32)) else c.
Definition lower (c : ascii) : ascii :=
  if is_upper c then ascii_of_N (Z.to_N (code c + 32)) else c.

(** str::split(c): n occurrences give n + 1 pieces *)
Fixpoint split_on (f : ascii -> bool) (t : text) : list text :=
  match t with
  | [] => [[]]
  | c :: t =>
      if f c then [] :: split_on f t
      else match split_on f t with
           | p :: ps => (c :: p) :: ps
           | [] => [[c]]
           end
  end.

(** str::split_inclusive(f): every piece but the last ends with a character
    satisfying f; no empty piece at the end *)
Fixpoint split_inclusive (f : ascii -> bool) (t : text) : list text :=
  match t with
  | [] => []
  | c :: t =>
      if f c then [c] :: split_inclusive f t
      else match split_inclusive f t with
           | p :: ps => (c :: p) :: ps
           | [] => [[c]]
           end
  end.

(** str::match_indices(f) of the characters satisfying f *)
Fixpoint match_indices (f : ascii -> bool) (k : nat) (t : text) : list nat :=
  match t with
  | [] => []
  | c :: t => if f c then k :: match_indices f (S k) t else match_indices f (S k) t
  end.

(** capitalize, gen_code.rs:923-932 *)
Definition capitalize (t : text) : text :=
  match t with [] => [] | c :: t => upper c :: map lower t end.

(** upper_camel_case, gen_code.rs:898-917 *)
Definition upper_camel_case (t : text) : text :=
  if existsb (Ascii.eqb "_") t then concat (map capitalize (split_on (Ascii.eqb "_") t))
  else match t with [] => [] | c :: t => upper c :: t end.

(** with_underscore, gen_code.rs:976-980 *)
Definition with_underscore (t : text) : text := "_"%char :: map lower t.

(** t[i..j] *)
Definition slice (i j : nat) (t : text) : text := firstn (j - i) (skipn i t).

(** the loop of snake_case, gen_code.rs:953-968 *)
Fixpoint snake_loop (t : text) (index : nat) (nexts : list nat) (v : text) : text :=
  match nexts with
  | next :: nexts =>
      snake_loop t next nexts
        (v ++ match index with
              | O => map lower (slice index next t)
              | _ => with_underscore (slice index next t)
              end)
  | [] =>
      v ++ match index with
           | O => map lower t
           | _ => with_underscore (skipn index t)
           end
  end.

(** snake_case, gen_code.rs:934-970 *)
Definition snake_case (t : text) : text :=
  let capitalized :=
    concat (map (fun p => if (length p =? 1)%nat then p else capitalize p)
                (split_inclusive (fun c => is_lower c || is_digit c) t)) in
  snake_loop capitalized 0 (match_indices is_upper 0 capitalized) [].
