(** Specification: values of different Rust types that stand for the same XDR data (C112).
    RFC 4506 says which of its types are the same: an enum is a signed number (4.3), a bool
    an enum (4.4), an optional value an array of at most one element or a union with the
    discriminant bool (4.19), a union its discriminant followed by an arm (4.15). *)
From Verif Require Import Base SpecUtf8 RustTypes SpecXdr SpecTypes.

(** types whose values are their components one after the other *)
Inductive product : list ty -> ty -> Prop :=
| pr_tuple ts : product ts (TTuple ts)
| pr_tuple_struct ts : product ts (TTupleStruct ts)
| pr_struct fs : product (map snd fs) (TStruct fs)
| pr_array k t : product (repeat t k) (TArray k t).

(** values without data *)
Inductive empty : ty -> rval -> Prop :=
| em_unit : empty TUnit RUnit
| em_unit_struct : empty TUnitStruct RUnit
| em_product t : product [] t -> empty t (RSeq []).

(** the types of the fields of a variant *)
Definition shape_types (s : vshape) : list ty :=
  match s with VUnit => [] | VNewtype t => [t] | VTuple ts => ts | VStruct fs => map snd fs end.

Notation u32 := (TInt false W32).
Notation u64 := (TInt false W64).

(** [view E t v u w]: the value [v] of [t] can be read as the value [w] of [u] *)
Inductive view (E : env) : ty -> rval -> ty -> rval -> Prop :=
| vw_refl t v : view E t v t v
| vw_trans t v u w s x : view E t v u w -> view E u w s x -> view E t v s x
(* names, boxes and newtypes *)
| vw_newtype t v : view E t v (TNewtype t) v
| vw_content t v : view E (TNewtype t) v t v
| vw_box t v : view E t v (TBox t) v
| vw_unbox t v : view E (TBox t) v t v
| vw_ref x t v : lookup E x = Some t -> view E t v (TRef x) v
| vw_deref x t v : lookup E x = Some t -> view E (TRef x) v t v
(* components *)
| vw_product ts t us u vs ws : product ts t -> product us u -> views E ts vs us ws ->
    view E t (RSeq vs) u (RSeq ws)
| vw_empty t v u w : empty t v -> empty u w -> view E t v u w
| vw_seq t u vs ws : views E (repeat t (length vs)) vs (repeat u (length ws)) ws ->
    view E (TSeq t) (RSeq vs) (TSeq u) (RSeq ws)
| vw_none t u : view E (TOption t) RNone (TOption u) RNone
| vw_some t u v w : view E t v u w -> view E (TOption t) (RSome v) (TOption u) (RSome w)
(* enums: other names, other fields, more variants *)
| vw_enum vss vss' i x x' s s' vs ws : nth_error vss i = Some (x, s) -> nth_error vss' i = Some (x', s') ->
    views E (shape_types s) vs (shape_types s') ws ->
    view E (TEnum vss) (RVariant i vs) (TEnum vss') (RVariant i ws)
(* a union is its discriminant followed by the arm *)
| vw_union vss i x s vs : nth_error vss i = Some (x, s) ->
    view E (TEnum vss) (RVariant i vs) (TTuple (u32 :: shape_types s)) (RSeq (RInt (Z.of_nat i) :: vs))
(* a bool is an enum with the members FALSE and TRUE *)
| vw_false vss x : nth_error vss 0 = Some (x, VUnit) -> view E (TEnum vss) (RVariant 0 []) TBool (RBool false)
| vw_true vss x : nth_error vss 1 = Some (x, VUnit) -> view E (TEnum vss) (RVariant 1 []) TBool (RBool true)
(* an optional value is an array of at most one element *)
| vw_no_element t : view E (TSeq t) (RSeq []) (TOption t) RNone
| vw_element t v : view E (TSeq t) (RSeq [v]) (TOption t) (RSome v)
(* and a union whose arms are void and the value *)
| vw_void_arm vss x t : nth_error vss 0 = Some (x, VUnit) -> view E (TEnum vss) (RVariant 0 []) (TOption t) RNone
| vw_value_arm vss x t v : nth_error vss 1 = Some (x, VNewtype t) ->
    view E (TEnum vss) (RVariant 1 [v]) (TOption t) (RSome v)
(* numbers *)
| vw_char c : view E TChar (RChar c) u32 (RInt c)
| vw_float z : view E TF32 (RFloat z) u32 (RInt z)
| vw_bits z : view E u32 (RInt z) TF32 (RFloat z)
| vw_double z : view E TF64 (RFloat z) u64 (RInt z)
| vw_long_bits z : view E u64 (RInt z) TF64 (RFloat z)
| vw_sign s s' w z z' : w = W32 \/ w = W64 -> int_range s' w z' -> (z' - z) mod 2 ^ bits w = 0 ->
    view E (TInt s w) (RInt z) (TInt s' w) (RInt z')
| vw_halves z : view E u64 (RInt z) (TTuple [u32; u32]) (RSeq [RInt (z / 2 ^ 32); RInt (z mod 2 ^ 32)])
(* opaque data and text *)
| vw_text bs : view E TStr (RStr bs) TByteBuf (RBytes bs)
| vw_bytes bs : view E TByteBuf (RBytes bs) TOpaqueVar (RBytes bs)
| vw_opaque bs : view E TOpaqueVar (RBytes bs) TByteBuf (RBytes bs)
(* a map is an array of pairs *)
| vw_map tk tv kvs : NoDup (map fst kvs) ->
    view E (TSeq (TTuple [tk; tv])) (RSeq (map (fun '(k, v) => RSeq [k; v]) kvs)) (TMap tk tv) (RMap kvs)
with views (E : env) : list ty -> list rval -> list ty -> list rval -> Prop :=
| vw_nil : views E [] [] [] []
| vw_cons t v ts vs u w us ws : view E t v u w -> views E ts vs us ws ->
    views E (t :: ts) (v :: vs) (u :: us) (w :: ws).

Scheme view_mind := Minimality for view Sort Prop
  with views_mind := Minimality for views Sort Prop.
Combined Scheme view_views_ind from view_mind, views_mind.
