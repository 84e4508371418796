(** Specification: the inputs on which a type panics instead of answering (C09).
    A string or a byte buffer whose padding is cut off; a lookup function written by the user
    that panics; a name that is no variant; and the tenth field of a derived variant. *)
From Verif Require Import Base SpecUtf8 RustTypes SpecXdr SpecTypes SpecDecode SpecAlike.

(** position of a variant with that name *)
Definition first_variant {B} (vss : list (string * B)) (name : string) (i : nat) (b : B) : Prop :=
  nth_error vss i = Some (name, b) /\ forall j b', (j < i)%nat -> nth_error vss j <> Some (name, b').

Inductive panics (E : env) : ty -> list byte -> Prop :=
| pn_str n bs p q : unsigned 4 (zlen bs) n -> valid_utf8 bs -> any_pad (zlen bs) (p ++ q) -> q <> [] ->
    panics E TStr (n ++ bs ++ p)
| pn_bytes n bs p q : unsigned 4 (zlen bs) n -> any_pad (zlen bs) (p ++ q) -> q <> [] ->
    panics E TByteBuf (n ++ bs ++ p)
| pn_some t w z c : unsigned 4 z w -> z <> 0 -> panics E t c -> panics E (TOption t) (w ++ c)
| pn_newtype t c : panics E t c -> panics E (TNewtype t) c
| pn_box t c : panics E t c -> panics E (TBox t) c
| pn_ref x t c : lookup E x = Some t -> panics E t c -> panics E (TRef x) c
| pn_product ts t c : product ts t -> panics_in E ts c -> panics E t c
| pn_seq t w z vs b c : unsigned 4 z w -> zlen vs < z -> accepts_all E (repeat t (length vs)) vs b ->
    panics E t c -> panics E (TSeq t) (w ++ b ++ c)
| pn_map tk tv w z kvs b c : unsigned 4 z w -> zlen kvs < z ->
    accepts_all E (flat_map (fun _ => [tk; tv]) kvs) (flat_map (fun '(k, v) => [k; v]) kvs) b ->
    panics_in E [tk; tv] c -> panics E (TMap tk tv) (w ++ b ++ c)
| pn_variant vss i x s w c : unsigned 4 (Z.of_nat i) w -> Z.of_nat i < 2 ^ 31 -> nth_error vss i = Some (x, s) ->
    panics_in E (shape_types s) c -> panics E (TEnum vss) (w ++ c)
| pn_signed32 asr tf d z w r : signed 4 z w -> with_dflt (assoc Z.eqb z tf) d = DPanic ->
    panics E (TSigned32 asr tf d) (w ++ r)
| pn_indexer_table vss index names d z w r : signed 4 z w -> with_dflt (assoc Z.eqb z names) d = DPanic ->
    panics E (TIndexer vss index names d) (w ++ r)
| pn_indexer_name vss index names d z w r name : signed 4 z w -> with_dflt (assoc Z.eqb z names) d = DVal name ->
    (forall b, ~ In (name, b) vss) -> panics E (TIndexer vss index names d) (w ++ r)
| pn_indexer vss index names d z w name i ts c : signed 4 z w -> with_dflt (assoc Z.eqb z names) d = DVal name ->
    first_variant vss name i ts -> panics_ten E ts c -> panics E (TIndexer vss index names d) (w ++ c)
| pn_disc vss disc names d c : panics E disc c -> panics E (TUnion vss disc names d) c
| pn_union_table vss disc names d v w r : accepts E disc v w -> with_dflt (assoc rval_eqb v names) d = DPanic ->
    panics E (TUnion vss disc names d) (w ++ r)
| pn_union_name vss disc names d v w r name : accepts E disc v w -> with_dflt (assoc rval_eqb v names) d = DVal name ->
    (forall b, ~ In (name, b) vss) -> panics E (TUnion vss disc names d) (w ++ r)
| pn_union vss disc names d v w name i ts c : accepts E disc v w -> with_dflt (assoc rval_eqb v names) d = DVal name ->
    first_variant vss name i (Some ts) -> panics_ten E ts c -> panics E (TUnion vss disc names d) (w ++ c)
with panics_in (E : env) : list ty -> list byte -> Prop :=
| pi_here t ts c : panics E t c -> panics_in E (t :: ts) c
| pi_later t ts v b c : accepts E t v b -> panics_in E ts c -> panics_in E (t :: ts) (b ++ c)
(** the fields of a derived variant: the discriminant and nine fields are read *)
with panics_ten (E : env) : list ty -> list byte -> Prop :=
| pt_field ts c : panics_in E (firstn 9 ts) c -> panics_ten E ts c
| pt_tenth ts vs b r : (9 < length ts)%nat -> accepts_all E (firstn 9 ts) vs b -> panics_ten E ts (b ++ r).

Scheme panics_mind := Minimality for panics Sort Prop
  with panics_in_mind := Minimality for panics_in Sort Prop
  with panics_ten_mind := Minimality for panics_ten Sort Prop.
Combined Scheme panics_ind3 from panics_mind, panics_in_mind, panics_ten_mind.
