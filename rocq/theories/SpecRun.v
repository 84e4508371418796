(** Running a function whose body is a match on its parameter. *)
From Verif Require Import Base RustTypes SpecRust SpecMeaning.
Local Open Scope string_scope.
Local Open Scope list_scope.

(** values that the matched parameter can have; of an enum value the name of
    the enum, the name of the variant and the number of its fields *)
Inductive dyn : Type :=
| DyInt (z : Z)
| DyBool (b : bool)
| DyVariant (x v : string) (fields : nat).

Definition matches (p : spat) (d : dyn) : bool :=
  match p, d with
  | SpWild, _ => true
  | SpInt z _, DyInt w => Z.eqb z w
  | SpBool b, DyBool c => Bool.eqb b c
  | SpPath (Path false [x; v]), DyVariant y w 0 => String.eqb x y && String.eqb v w
  | SpTuple (Path false [x; v]) ps, DyVariant y w k =>
      String.eqb x y && String.eqb v w && Nat.eqb (length ps) k &&
      forallb (fun p => match p with SpWild => true | _ => false end) ps
  | _, _ => false
  end.
(** the body of the first arm that matches *)
Definition taken_arm (l : list (spat * sexpr)) (d : dyn) : option sexpr :=
  option_map snd (find (fun a => matches (fst a) d) l).

(** the function [f] of the impl of the trait [tr] for [x], called with [d] *)
Definition call_gives (items : list sitem) (tr : stype -> bool) (x f : string) (d : dyn) (e : sexpr) : Prop :=
  exists t ms q l, impl_of items tr x = Some (t, ms) /\ method f ms = Some (q, l) /\ taken_arm l d = Some e.

Definition is_union (t : stype) : bool := match applied "XdrUnion" t with Some _ => true | None => false end.
(** a value of the type [dt] as it is matched *)
Definition dyn_of (items : list sitem) (dt : ty) (v : rval) : option dyn :=
  match dt, v with
  | TBool, RBool b => Some (DyBool b)
  | TInt false W32, RInt z => Some (DyInt z)
  | TRef x, RVariant i [] =>
      let? names := enum_variants items x in let? n := nth_error names i in Some (DyVariant x n 0)
  | _, _ => None
  end.
