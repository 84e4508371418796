(** Specification: types whose decoding requests a bounded amount of memory
    (C107). *)
From Verif Require Import Base RustTypes DeModel SpecWork.

(** types that are read from a word of their own and what follows it *)
Definition worded (t : ty) : bool :=
  match t with
  | TOption _ | TSeq _ | TMap _ _ | TStr | TByteBuf | TEnum _ | TIndexer _ _ _ _ => true
  | _ => false
  end.
(** types that are read without any memory *)
Fixpoint inplace (t : ty) : bool :=
  match t with
  | TBool | TInt _ _ | TF32 | TF64 | TChar | TUnit | TUnitStruct | TSigned32 _ _ _ => true
  | TArray _ t | TNewtype t => inplace t
  | _ => false
  end.
(** what a box may hold so that the bytes it is read from pay for it *)
Definition light (sz : ty -> Z) (E : env) (b : ty) : Prop :=
  sz b = 0 \/ worded b = true \/ inplace b = true /\ never_empty E b.

(** [S] bounds the size in memory of the types inside [t], [P] the sizes of its
    opaque data.  The elements of its vectors take bytes of the input unless
    they take no memory.  A box holds something read from a word of its own,
    or numbers, or what takes no memory, or it is the content of an optional
    value. *)
Definition modest (sz : ty -> Z) (S P : Z) (E : env) (t : ty) : Prop :=
  (forall u, within E u t -> 0 <= sz u <= S) /\
  (forall a, within E (TSeq a) t -> sz a = 0 \/ never_empty E a) /\
  (forall u b, within E u t -> In (TBox b) (inner E u) -> light sz E b \/ u = TOption (TBox b)) /\
  (forall k, within E (TOpaqueFixed k) t -> Z.of_nat k <= P) /\
  (within E TOpaqueVar t -> 2 ^ 32 - 1 <= P).

(** [t] itself is not a box of something else *)
Definition unboxed_top (sz : ty -> Z) (E : env) (t : ty) : Prop := forall b, t = TBox b -> light sz E b.

(** [sz] gives no memory to what is read from nothing, and at most [S] bytes to
    the types inside [t] *)
Definition sizes (sz : ty -> Z) (S : Z) (E : env) (t : ty) : Prop :=
  forall u, within E u t -> 0 <= sz u <= S /\ (sz u = 0 \/ never_empty E u).
