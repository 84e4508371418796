(** Specification: the error that a type gives for an input (C114).  Reading goes from left
    to right; the error is the first thing that is wrong. *)
From Verif Require Import Base SpecUtf8 RustTypes SpecXdr SpecTypes SpecDecode SpecAlike SpecPanic.

(** bytes of the word that a type begins with, where it is a single number *)
Definition first_word (t : ty) : option Z :=
  match t with
  | TBool | TF32 | TChar | TStr | TByteBuf | TOption _ | TSeq _ | TMap _ _ | TEnum _ | TOpaqueVar
  | TSigned32 _ _ _ | TIndexer _ _ _ _ => Some 4
  | TF64 => Some 8
  | TInt _ W128 => None
  | TInt _ w => Some (Z.of_nat (int_bytes w))
  | _ => None
  end.

(** opaque data is read in units of four bytes *)
Definition lacks_unit (size : Z) (i : list byte) : Prop := exists m, m mod 4 = 0 /\ size <= m < size + 4 /\ zlen i < m.

Inductive fails (E : env) : ty -> list byte -> error -> Prop :=
| fl_word t k i : first_word t = Some k -> zlen i < k -> fails E t i (ENotEnoughData (k - zlen i))
| fl_128 s i : fails E (TInt s W128) i (ECustom MUnsupported128)
| fl_char c w r : unsigned 4 c w -> ~ is_scalar c -> fails E TChar (w ++ r) EConvert
| fl_str z n bs : unsigned 4 z n -> zlen bs < z -> fails E TStr (n ++ bs) (ENotEnoughData (z - zlen bs))
| fl_utf8 n bs r : unsigned 4 (zlen bs) n -> ~ valid_utf8 bs -> fails E TStr (n ++ bs ++ r) EEncoding
| fl_bytes z n bs : unsigned 4 z n -> zlen bs < z -> fails E TByteBuf (n ++ bs) (ENotEnoughData (z - zlen bs))
| fl_fopaque k i : lacks_unit (Z.of_nat k) i -> fails E (TOpaqueFixed k) i (ENotEnoughData (4 - zlen i mod 4))
| fl_opaque z n i : unsigned 4 z n -> lacks_unit z i -> fails E TOpaqueVar (n ++ i) (ENotEnoughData (4 - zlen i mod 4))
| fl_some t w z c e : unsigned 4 z w -> z <> 0 -> fails E t c e -> fails E (TOption t) (w ++ c) e
| fl_newtype t c e : fails E t c e -> fails E (TNewtype t) c e
| fl_box t c e : fails E t c e -> fails E (TBox t) c e
| fl_ref x t c e : lookup E x = Some t -> fails E t c e -> fails E (TRef x) c e
| fl_product ts t c e : product ts t -> fails_in E ts c e -> fails E t c e
| fl_seq t w z vs b c e : unsigned 4 z w -> zlen vs < z -> accepts_all E (repeat t (length vs)) vs b ->
    fails E t c e -> fails E (TSeq t) (w ++ b ++ c) e
| fl_map tk tv w z kvs b c e : unsigned 4 z w -> zlen kvs < z ->
    accepts_all E (flat_map (fun _ => [tk; tv]) kvs) (flat_map (fun '(k, v) => [k; v]) kvs) b ->
    fails_in E [tk; tv] c e -> fails E (TMap tk tv) (w ++ b ++ c) e
| fl_negative vss z w r : signed 4 z w -> z < 0 -> fails E (TEnum vss) (w ++ r) EConvert
| fl_no_variant vss z w r : signed 4 z w -> zlen vss <= z -> fails E (TEnum vss) (w ++ r) (ECustom (MInvalidVariant z))
| fl_variant vss i x s w c e : unsigned 4 (Z.of_nat i) w -> Z.of_nat i < 2 ^ 31 -> nth_error vss i = Some (x, s) ->
    fails_in E (shape_types s) c e -> fails E (TEnum vss) (w ++ c) e
| fl_signed32 asr tf d z w r : signed 4 z w -> with_dflt (assoc Z.eqb z tf) d = DErr ->
    fails E (TSigned32 asr tf d) (w ++ r) (ECustom (MCannotConvert z))
| fl_indexer_table vss index names d z w r : signed 4 z w -> with_dflt (assoc Z.eqb z names) d = DErr ->
    fails E (TIndexer vss index names d) (w ++ r) (ECustom (MCannotConvert z))
| fl_indexer vss index names d z w name i ts c e : signed 4 z w -> with_dflt (assoc Z.eqb z names) d = DVal name ->
    first_variant vss name i ts -> fails_in E (firstn 9 ts) c e -> fails E (TIndexer vss index names d) (w ++ c) e
| fl_disc vss disc names d c e : fails E disc c e -> fails E (TUnion vss disc names d) c e
| fl_union_table vss disc names d v w r : accepts E disc v w -> with_dflt (assoc rval_eqb v names) d = DErr ->
    fails E (TUnion vss disc names d) (w ++ r) (ECustom MCannotConvertValue)
| fl_union vss disc names d v w name i ts c e : accepts E disc v w -> with_dflt (assoc rval_eqb v names) d = DVal name ->
    first_variant vss name i (Some ts) -> fails_in E (firstn 9 ts) c e -> fails E (TUnion vss disc names d) (w ++ c) e
with fails_in (E : env) : list ty -> list byte -> error -> Prop :=
| fi_here t ts c e : fails E t c e -> fails_in E (t :: ts) c e
| fi_later t ts v b c e : accepts E t v b -> fails_in E ts c e -> fails_in E (t :: ts) (b ++ c) e.

Scheme fails_mind := Minimality for fails Sort Prop
  with fails_in_mind := Minimality for fails_in Sort Prop.
Combined Scheme fails_fails_in_ind from fails_mind, fails_in_mind.

(** what [from_bytes] reports: an error inside the value, or bytes after it *)
Inductive reports (E : env) (t : ty) : list byte -> error -> Prop :=
| rp_inside i e : fails E t i e -> reports E t i e
| rp_trailing v c r : accepts E t v c -> r <> [] -> reports E t (c ++ r) (ETrailingData (zlen r)).
