(** Specification: how much dynamically sized data a value holds (C95). *)
From Verif Require Import Base RustTypes DeModel.

(** The dynamically sized data that a value itself holds: four bytes for every
    element of a sequence and every entry of a map, one byte for every byte of
    a string or of variable-length opaque data. *)
Definition own (t : ty) (v : rval) : Z :=
  match t, v with
  | TSeq _, RSeq vs => 4 * zlen vs
  | TMap _ _, RMap m => 4 * zlen m
  | TStr, RStr bs => zlen bs
  | (TByteBuf | TOpaqueVar), RBytes bs => zlen bs
  | _, _ => 0
  end.

(** the values directly inside a value, with their types *)
Definition members (E : env) (t : ty) (v : rval) : list (ty * rval) :=
  match t, v with
  | TOption t, RSome v => [(t, v)]
  | TNewtype t, v | TBox t, v => [(t, v)]
  | TSeq t, RSeq vs | TArray _ t, RSeq vs => map (pair t) vs
  | TTuple ts, RSeq vs | TTupleStruct ts, RSeq vs => combine ts vs
  | TStruct ts, RSeq vs => combine (map snd ts) vs
  | TMap tk tv, RMap m => flat_map (fun '(k, v) => [(tk, k); (tv, v)]) m
  | TEnum vss, RVariant i vs =>
      match nth_error vss i with
      | Some (_, VNewtype t) => combine [t] vs
      | Some (_, VTuple ts) => combine ts vs
      | Some (_, VStruct ts) => combine (map snd ts) vs
      | _ => []
      end
  | TIndexer vss _ _ _, RVariant i vs =>
      match nth_error vss i with Some (_, ts) => combine ts vs | None => [] end
  | TUnion vss disc _ _, RVariant i vs =>
      match nth_error vss i with Some (_, Some ts) => combine (disc :: ts) vs | _ => [] end
  | TRef x, v => match lookup E x with Some t => [(t, v)] | None => [] end
  | _, _ => []
  end.

(** the dynamically sized data that a value holds at all depths *)
Inductive load (E : env) : ty -> rval -> Z -> Prop :=
| ld_all t v k : loads E (members E t v) k -> load E t v (own t v + k)
with loads (E : env) : list (ty * rval) -> Z -> Prop :=
| ld_nil : loads E [] 0
| ld_cons t v k ms l : load E t v k -> loads E ms l -> loads E ((t, v) :: ms) (k + l).

Scheme load_mind := Minimality for load Sort Prop
  with loads_mind := Minimality for loads Sort Prop.
Combined Scheme load_loads_ind from load_mind, loads_mind.

(** the types directly inside a type *)
Definition inner (E : env) (t : ty) : list ty :=
  match t with
  | TOption t | TNewtype t | TBox t | TSeq t | TArray _ t => [t]
  | TTuple ts | TTupleStruct ts => ts
  | TStruct ts => map snd ts
  | TMap k v => [k; v]
  | TEnum vss => flat_map (fun '(_, sh) =>
      match sh with
      | VUnit => [] | VNewtype t => [t] | VTuple ts => ts | VStruct ts => map snd ts
      end) vss
  | TIndexer vss _ _ _ => flat_map snd vss
  | TUnion vss disc _ _ =>
      disc :: flat_map (fun '(_, o) => match o with Some ts => ts | None => [] end) vss
  | TRef x => match lookup E x with Some t => [t] | None => [] end
  | _ => []
  end.

(** the types inside a type at any depth, itself included *)
Inductive within (E : env) (u : ty) : ty -> Prop :=
| wi_here : within E u u
| wi_inner s t : In s (inner E t) -> within E u s -> within E u t.

(** no value of the type is decoded from an empty input *)
Definition never_empty (E : env) (t : ty) : Prop := forall n v, from_bytes n E t [] <> Ok v.

(** the elements of all sequences and the entries of all maps take bytes *)
Definition solid (E : env) (t : ty) : Prop :=
  (forall a, within E (TSeq a) t -> never_empty E a) /\
  (forall k v, within E (TMap k v) t -> never_empty E k \/ never_empty E v).

(** The types inside a type nest less than [d] deep (C96). *)
Fixpoint shallow (d : nat) (E : env) (t : ty) : bool :=
  match d with
  | O => false
  | S d => forallb (shallow d E) (inner E t)
  end.
