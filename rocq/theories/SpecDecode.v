(** Specification: the byte strings that a type accepts and the value each one
    stands for.  The relation is lenient where RFC 4506 lets a decoder be
    (content of padding bytes) and where the crate documents or exhibits a
    coercion (any non-zero word is true / Some, narrow integers keep their
    low-order bits). *)
From Verif Require Import Base SpecUtf8 RustTypes SpecXdr SpecTypes.

(** bytes filling up to a multiple of four, of any content *)
Definition any_pad (len : Z) (p : list byte) : Prop :=
  (len + zlen p) mod 4 = 0 /\ zlen p < 4.

(** number of bytes of an integer on the wire *)
Definition int_bytes (w : width) : nat := match w with W64 => 8 | _ => 4 end.

(** Entries of a map after reading the pairs [kvs] one after the other: a new
    key is added at the end, a key already present gets the new value. *)
Inductive last_wins : list (rval * rval) -> list (rval * rval) -> Prop :=
| lw_nil : last_wins [] []
| lw_new kvs m k v : last_wins kvs m -> ~ In k (map fst m) ->
    last_wins (kvs ++ [(k, v)]) (m ++ [(k, v)])
| lw_again kvs m1 k v v' m2 : last_wins kvs (m1 ++ (k, v) :: m2) ->
    last_wins (kvs ++ [(k, v')]) (m1 ++ (k, v') :: m2).

Inductive accepts (E : env) : ty -> rval -> list byte -> Prop :=
| ac_false w : unsigned 4 0 w -> accepts E TBool (RBool false) w
| ac_true w z : unsigned 4 z w -> z <> 0 -> accepts E TBool (RBool true) w
| ac_int s w z z' word : w <> W128 -> unsigned (int_bytes w) z' word ->
    int_range s w z -> (z - z') mod 2 ^ bits w = 0 ->
    accepts E (TInt s w) (RInt z) word
| ac_f32 z w : unsigned 4 z w -> accepts E TF32 (RFloat z) w
| ac_f64 z w : unsigned 8 z w -> accepts E TF64 (RFloat z) w
| ac_char c w : unsigned 4 c w -> is_scalar c -> accepts E TChar (RChar c) w
| ac_str n bs p : unsigned 4 (zlen bs) n -> any_pad (zlen bs) p -> valid_utf8 bs ->
    accepts E TStr (RStr bs) (n ++ bs ++ p)
| ac_bytes n bs p : unsigned 4 (zlen bs) n -> any_pad (zlen bs) p ->
    accepts E TByteBuf (RBytes bs) (n ++ bs ++ p)
| ac_none t w : unsigned 4 0 w -> accepts E (TOption t) RNone w
| ac_some t v w z bs : unsigned 4 z w -> z <> 0 -> accepts E t v bs ->
    accepts E (TOption t) (RSome v) (w ++ bs)
| ac_unit : accepts E TUnit RUnit []
| ac_unit_struct : accepts E TUnitStruct RUnit []
| ac_newtype t v bs : accepts E t v bs -> accepts E (TNewtype t) v bs
| ac_box t v bs : accepts E t v bs -> accepts E (TBox t) v bs
| ac_seq t vs n bs : unsigned 4 (zlen vs) n ->
    accepts_all E (repeat t (length vs)) vs bs ->
    accepts E (TSeq t) (RSeq vs) (n ++ bs)
| ac_array k t vs bs : accepts_all E (repeat t k) vs bs ->
    accepts E (TArray k t) (RSeq vs) bs
| ac_tuple ts vs bs : accepts_all E ts vs bs -> accepts E (TTuple ts) (RSeq vs) bs
| ac_tuple_struct ts vs bs : accepts_all E ts vs bs ->
    accepts E (TTupleStruct ts) (RSeq vs) bs
| ac_struct ts vs bs : accepts_all E (map snd ts) vs bs ->
    accepts E (TStruct ts) (RSeq vs) bs
| ac_map tk tv kvs m n bs : unsigned 4 (zlen kvs) n ->
    accepts_all E (flat_map (fun _ => [tk; tv]) kvs)
                  (flat_map (fun '(k, v) => [k; v]) kvs) bs ->
    last_wins kvs m ->
    accepts E (TMap tk tv) (RMap m) (n ++ bs)
| ac_unit_variant vss i name w : unsigned 4 (Z.of_nat i) w -> Z.of_nat i < 2 ^ 31 ->
    nth_error vss i = Some (name, VUnit) ->
    accepts E (TEnum vss) (RVariant i []) w
| ac_newtype_variant vss i name t v w bs : unsigned 4 (Z.of_nat i) w ->
    Z.of_nat i < 2 ^ 31 -> nth_error vss i = Some (name, VNewtype t) ->
    accepts E t v bs ->
    accepts E (TEnum vss) (RVariant i [v]) (w ++ bs)
| ac_tuple_variant vss i name ts vs w bs : unsigned 4 (Z.of_nat i) w ->
    Z.of_nat i < 2 ^ 31 -> nth_error vss i = Some (name, VTuple ts) ->
    accepts_all E ts vs bs ->
    accepts E (TEnum vss) (RVariant i vs) (w ++ bs)
| ac_struct_variant vss i name ts vs w bs : unsigned 4 (Z.of_nat i) w ->
    Z.of_nat i < 2 ^ 31 -> nth_error vss i = Some (name, VStruct ts) ->
    accepts_all E (map snd ts) vs bs ->
    accepts E (TEnum vss) (RVariant i vs) (w ++ bs)
| ac_fopaque k bs p : length bs = k -> any_pad (zlen bs) p ->
    accepts E (TOpaqueFixed k) (RBytes bs) (bs ++ p)
| ac_opaque n bs p : unsigned 4 (zlen bs) n -> any_pad (zlen bs) p ->
    accepts E TOpaqueVar (RBytes bs) (n ++ bs ++ p)
| ac_signed32 asr tf d i z w : signed 4 z w ->
    with_dflt (assoc Z.eqb z tf) d = DVal i ->
    accepts E (TSigned32 asr tf d) (RVariant i []) w
| ac_indexer vss index names d i z w name ts vs bs : signed 4 z w ->
    with_dflt (assoc Z.eqb z names) d = DVal name ->
    nth_error vss i = Some (name, ts) ->
    (forall j ts', (j < i)%nat -> nth_error vss j <> Some (name, ts')) ->
    (length ts <= 9)%nat ->
    accepts_all E ts vs bs ->
    accepts E (TIndexer vss index names d) (RVariant i vs) (w ++ bs)
| ac_union_unit vss disc names d i v w name : accepts E disc v w ->
    with_dflt (assoc rval_eqb v names) d = DVal name ->
    nth_error vss i = Some (name, None) ->
    (forall j ts', (j < i)%nat -> nth_error vss j <> Some (name, ts')) ->
    accepts E (TUnion vss disc names d) (RVariant i []) w
| ac_union vss disc names d i v w name ts vs bs : accepts E disc v w ->
    with_dflt (assoc rval_eqb v names) d = DVal name ->
    nth_error vss i = Some (name, Some ts) ->
    (forall j ts', (j < i)%nat -> nth_error vss j <> Some (name, ts')) ->
    (length ts <= 9)%nat ->
    accepts_all E ts vs bs ->
    accepts E (TUnion vss disc names d) (RVariant i (v :: vs)) (w ++ bs)
| ac_ref x t v bs : lookup E x = Some t -> accepts E t v bs -> accepts E (TRef x) v bs
with accepts_all (E : env) : list ty -> list rval -> list byte -> Prop :=
| ac_nil : accepts_all E [] [] []
| ac_cons t ts v vs b bs : accepts E t v b -> accepts_all E ts vs bs ->
    accepts_all E (t :: ts) (v :: vs) (b ++ bs).

Scheme accepts_mind := Minimality for accepts Sort Prop
  with accepts_all_mind := Minimality for accepts_all Sort Prop.
Combined Scheme accepts_accepts_all_ind from accepts_mind, accepts_all_mind.
