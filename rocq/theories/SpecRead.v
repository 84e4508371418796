(** Specification: the inputs that a program generated from a list of
    definitions accepts, and the value of the protocol each one is read as.

    The inputs are the encodings of RFC 4506 with four liberties: padding
    bytes of any content, any non-zero word for TRUE and for the presence of
    an optional value, any upper bits of a char or short, and, in the indexer
    mode, the number of no member for the member with the lowest number. *)
From Verif Require Import Base SpecUtf8 Nom Ast SpecXdr SpecGrammar SpecParse SpecCase RustAst
  GenModel SpecGen SpecItems SpecXdl RustTypes SpecTypes SpecDecode.

(** [z] written in the low-order [n] bits of a word *)
Definition low_bits (n z : Z) (w : list byte) : Prop :=
  exists z', unsigned 4 z' w /\ (z - z') mod 2 ^ n = 0.
(** the lowest number of the members *)
Definition lowest (ds : list definition) (l : list assign) (z : Z) : Prop :=
  (exists a, In a l /\ value_is ds (as_value a) z) /\
  forall b y, In b l -> value_is ds (as_value b) y -> z <= y.

(** [xread ds um ix t x bs]: as a [t], [bs] is read as [x].  [ix]: words of no
    member stand for the lowest one.  [um]: a discriminant is read like any
    other value of its type; otherwise only its RFC encoding is accepted, and
    there are no default arms. *)
Inductive xread (ds : list definition) (um ix : bool) : tyspec -> xv -> list byte -> Prop :=
| xr_int z w : signed 4 z w -> xread ds um ix (TsInt true) (XInt z) w
| xr_uint z w : unsigned 4 z w -> xread ds um ix (TsInt false) (XUInt z) w
| xr_hyper z w : signed 8 z w -> xread ds um ix (TsHyper true) (XHyper z) w
| xr_uhyper z w : unsigned 8 z w -> xread ds um ix (TsHyper false) (XUHyper z) w
| xr_float z w : unsigned 4 z w -> xread ds um ix TsFloat (XFloat z) w
| xr_double z w : unsigned 8 z w -> xread ds um ix TsDouble (XDouble z) w
| xr_false w : unsigned 4 0 w -> xread ds um ix TsBool (XEnum 0) w
| xr_true z w : unsigned 4 z w -> z <> 0 -> xread ds um ix TsBool (XEnum 1) w
| xr_char z w : - 2 ^ 7 <= z < 2 ^ 7 -> low_bits 8 z w -> xread ds um ix (TsChar true) (XInt z) w
| xr_uchar z w : 0 <= z < 2 ^ 8 -> low_bits 8 z w -> xread ds um ix (TsChar false) (XUInt z) w
| xr_short z w : - 2 ^ 15 <= z < 2 ^ 15 -> low_bits 16 z w -> xread ds um ix (TsShort true) (XInt z) w
| xr_ushort z w : 0 <= z < 2 ^ 16 -> low_bits 16 z w -> xread ds um ix (TsShort false) (XUInt z) w
| xr_enum l a z w : In a l -> value_is ds (as_value a) z -> signed 4 z w ->
    xread ds um ix (TsEnum l) (XEnum z) w
| xr_unknown l z z' w : ix = true -> lowest ds l z -> - 2 ^ 31 <= z < 2 ^ 31 -> signed 4 z' w ->
    (forall a, In a l -> ~ value_is ds (as_value a) z') ->
    xread ds um ix (TsEnum l) (XEnum z) w
| xr_struct l xs bs : xread_fields ds um ix l xs bs -> xread ds um ix (TsStruct l) (XStruct xs) bs
| xr_case t y specs dflt d z vs v arm a w bs : um = true ->
    xread ds um ix t d w -> number_of d z ->
    In (CaseSpec vs arm) specs -> In v vs -> label_is ds v z -> xread_decl ds um ix arm a bs ->
    xread ds um ix (TsUnion (UBody (DVariable t y) specs dflt)) (XUnion d a) (w ++ bs)
| xr_default t y specs d z arm a w bs : um = true ->
    xread ds um ix t d w -> number_of d z ->
    (forall v, In v (labels specs) -> ~ label_is ds v z) -> xread_decl ds um ix arm a bs ->
    xread ds um ix (TsUnion (UBody (DVariable t y) specs (Some arm))) (XUnion d a) (w ++ bs)
| xr_exact_case t y specs dflt d z vs v arm a w bs : um = false ->
    xtype ds um t d -> rfc d w -> number_of d z ->
    In (CaseSpec vs arm) specs -> In v vs -> label_is ds v z -> xread_decl ds um ix arm a bs ->
    xread ds um ix (TsUnion (UBody (DVariable t y) specs dflt)) (XUnion d a) (w ++ bs)
| xr_typedef n d x bs : first n (type_defs ds) (TdDecl d) -> xread_decl ds um ix d x bs ->
    xread ds um ix (TsIdent n) x bs
| xr_name_enum n y l x bs : first n (type_defs ds) (TdEnum y l) -> xread ds um ix (TsEnum l) x bs ->
    xread ds um ix (TsIdent n) x bs
| xr_name_struct n y l x bs : first n (type_defs ds) (TdStruct y l) ->
    xread ds um ix (TsStruct l) x bs -> xread ds um ix (TsIdent n) x bs
| xr_name_union n y u x bs : first n (type_defs ds) (TdUnion y u) -> xread ds um ix (TsUnion u) x bs ->
    xread ds um ix (TsIdent n) x bs
with xread_decl (ds : list definition) (um ix : bool) : decl -> xv -> list byte -> Prop :=
| xrd_variable t y x bs : xread ds um ix t x bs -> xread_decl ds um ix (DVariable t y) x bs
| xrd_array t y v xs bs : value_is ds v (zlen xs) -> xread_all ds um ix t xs bs ->
    xread_decl ds um ix (DFixedArray t y v) (XFArray xs) bs
| xrd_vararray t y max xs n bs : within ds max (zlen xs) -> unsigned 4 (zlen xs) n ->
    xread_all ds um ix t xs bs -> xread_decl ds um ix (DVariableArray t y max) (XArray xs) (n ++ bs)
| xrd_opaque y v bs p : value_is ds v (zlen bs) -> any_pad (zlen bs) p ->
    xread_decl ds um ix (DOpaqueFixed y v) (XFOpaque bs) (bs ++ p)
| xrd_varopaque y max n bs p : within ds max (zlen bs) -> unsigned 4 (zlen bs) n ->
    any_pad (zlen bs) p -> xread_decl ds um ix (DOpaqueVariable y max) (XOpaque bs) (n ++ bs ++ p)
| xrd_string y max n bs p : valid_utf8 bs -> within ds max (zlen bs) -> unsigned 4 (zlen bs) n ->
    any_pad (zlen bs) p -> xread_decl ds um ix (DString y max) (XString bs) (n ++ bs ++ p)
| xrd_none t y w : unsigned 4 0 w -> xread_decl ds um ix (DOption t y) XNone w
| xrd_some t y x z w bs : unsigned 4 z w -> z <> 0 -> xread ds um ix t x bs ->
    xread_decl ds um ix (DOption t y) (XSome x) (w ++ bs)
| xrd_void : xread_decl ds um ix DVoid XVoid []
with xread_all (ds : list definition) (um ix : bool) : tyspec -> list xv -> list byte -> Prop :=
| xra_nil t : xread_all ds um ix t [] []
| xra_cons t x xs b bs : xread ds um ix t x b -> xread_all ds um ix t xs bs ->
    xread_all ds um ix t (x :: xs) (b ++ bs)
with xread_fields (ds : list definition) (um ix : bool) : list decl -> list xv -> list byte -> Prop :=
| xrf_nil : xread_fields ds um ix [] [] []
| xrf_cons d l x xs b bs : xread_decl ds um ix d x b -> xread_fields ds um ix l xs bs ->
    xread_fields ds um ix (d :: l) (x :: xs) (b ++ bs).

Scheme xread_mind := Minimality for xread Sort Prop
  with xread_decl_mind := Minimality for xread_decl Sort Prop
  with xread_all_mind := Minimality for xread_all Sort Prop
  with xread_fields_mind := Minimality for xread_fields Sort Prop.
Combined Scheme xread_decl_ind4 from xread_mind, xread_decl_mind, xread_all_mind, xread_fields_mind.
