(** Specification: the XDR values that a list of definitions describes (RFC
    4506 section 4), and the definitions for which generated code is claimed to
    use the RFC's encoding. *)
From Verif Require Import Base SpecUtf8 Nom Ast SpecXdr SpecGrammar SpecParse SpecCase RustAst
  GenModel SpecGen SpecItems.
Local Open Scope string_scope.

(** ** Values of types *)
(** case labels; bool is enum { FALSE = 0, TRUE = 1 } (section 4.4) *)
Definition label_is (ds : list definition) (v : value) (z : Z) : Prop :=
  v = VIdent "FALSE" /\ z = 0 \/ v = VIdent "TRUE" /\ z = 1 \/
  v <> VIdent "FALSE" /\ v <> VIdent "TRUE" /\ value_is ds v z.

(** the number of a discriminant: int, unsigned int or an enumerated type
    (section 4.15) *)
Definition number_of (x : xv) (z : Z) : Prop := x = XInt z \/ x = XUInt z \/ x = XEnum z.

(** declared maximum sizes (sections 4.10, 4.11, 4.13) *)
Definition within (ds : list definition) (max : option value) (len : Z) : Prop :=
  len < 2 ^ 32 /\ match max with Some v => exists m, value_is ds v m /\ len <= m | None => True end.

(** [xtype ds dm t x]: [x] is a value of type [t].  With [dm = false] the
    values that select the default arm of a union are left out.  The values of
    char and short, which are not in the RFC, are integers of 8 and 16 bits;
    strings are UTF-8 (the RFC: ASCII). *)
Inductive xtype (ds : list definition) (dm : bool) : tyspec -> xv -> Prop :=
| xt_int z : - 2 ^ 31 <= z < 2 ^ 31 -> xtype ds dm (TsInt true) (XInt z)
| xt_uint z : 0 <= z < 2 ^ 32 -> xtype ds dm (TsInt false) (XUInt z)
| xt_hyper z : - 2 ^ 63 <= z < 2 ^ 63 -> xtype ds dm (TsHyper true) (XHyper z)
| xt_uhyper z : 0 <= z < 2 ^ 64 -> xtype ds dm (TsHyper false) (XUHyper z)
| xt_float z : 0 <= z < 2 ^ 32 -> xtype ds dm TsFloat (XFloat z)
| xt_double z : 0 <= z < 2 ^ 64 -> xtype ds dm TsDouble (XDouble z)
| xt_bool b : xtype ds dm TsBool (XEnum (if b : bool then 1 else 0))
| xt_char z : - 2 ^ 7 <= z < 2 ^ 7 -> xtype ds dm (TsChar true) (XInt z)
| xt_uchar z : 0 <= z < 2 ^ 8 -> xtype ds dm (TsChar false) (XUInt z)
| xt_short z : - 2 ^ 15 <= z < 2 ^ 15 -> xtype ds dm (TsShort true) (XInt z)
| xt_ushort z : 0 <= z < 2 ^ 16 -> xtype ds dm (TsShort false) (XUInt z)
| xt_enum l a z : In a l -> value_is ds (as_value a) z -> - 2 ^ 31 <= z < 2 ^ 31 ->
    xtype ds dm (TsEnum l) (XEnum z)
| xt_struct l xs : xfields ds dm l xs -> xtype ds dm (TsStruct l) (XStruct xs)
| xt_case t y specs dflt d z vs v arm a :
    xtype ds dm t d -> number_of d z ->
    In (CaseSpec vs arm) specs -> In v vs -> label_is ds v z -> xdecl ds dm arm a ->
    xtype ds dm (TsUnion (UBody (DVariable t y) specs dflt)) (XUnion d a)
| xt_default t y specs d z arm a :
    dm = true -> xtype ds dm t d -> number_of d z ->
    (forall v, In v (labels specs) -> ~ label_is ds v z) -> xdecl ds dm arm a ->
    xtype ds dm (TsUnion (UBody (DVariable t y) specs (Some arm))) (XUnion d a)
| xt_typedef n d x : first n (type_defs ds) (TdDecl d) -> xdecl ds dm d x ->
    xtype ds dm (TsIdent n) x
| xt_name_enum n y l x : first n (type_defs ds) (TdEnum y l) -> xtype ds dm (TsEnum l) x ->
    xtype ds dm (TsIdent n) x
| xt_name_struct n y l x : first n (type_defs ds) (TdStruct y l) -> xtype ds dm (TsStruct l) x ->
    xtype ds dm (TsIdent n) x
| xt_name_union n y u x : first n (type_defs ds) (TdUnion y u) -> xtype ds dm (TsUnion u) x ->
    xtype ds dm (TsIdent n) x
with xdecl (ds : list definition) (dm : bool) : decl -> xv -> Prop :=
| xd_variable t y x : xtype ds dm t x -> xdecl ds dm (DVariable t y) x
| xd_array t y v xs : value_is ds v (zlen xs) -> xall ds dm t xs ->
    xdecl ds dm (DFixedArray t y v) (XFArray xs)
| xd_vararray t y max xs : within ds max (zlen xs) -> xall ds dm t xs ->
    xdecl ds dm (DVariableArray t y max) (XArray xs)
| xd_opaque y v bs : value_is ds v (zlen bs) -> xdecl ds dm (DOpaqueFixed y v) (XFOpaque bs)
| xd_varopaque y max bs : within ds max (zlen bs) ->
    xdecl ds dm (DOpaqueVariable y max) (XOpaque bs)
| xd_string y max bs : valid_utf8 bs -> within ds max (zlen bs) ->
    xdecl ds dm (DString y max) (XString bs)
| xd_none t y : xdecl ds dm (DOption t y) XNone
| xd_some t y x : xtype ds dm t x -> xdecl ds dm (DOption t y) (XSome x)
| xd_void : xdecl ds dm DVoid XVoid
with xall (ds : list definition) (dm : bool) : tyspec -> list xv -> Prop :=
| xa_nil t : xall ds dm t []
| xa_cons t x xs : xtype ds dm t x -> xall ds dm t xs -> xall ds dm t (x :: xs)
with xfields (ds : list definition) (dm : bool) : list decl -> list xv -> Prop :=
| xf_nil : xfields ds dm [] []
| xf_cons d l x xs : xdecl ds dm d x -> xfields ds dm l xs -> xfields ds dm (d :: l) (x :: xs).

Scheme xtype_mind := Minimality for xtype Sort Prop
  with xdecl_mind := Minimality for xdecl Sort Prop
  with xall_mind := Minimality for xall Sort Prop
  with xfields_mind := Minimality for xfields Sort Prop.
Combined Scheme xtype_xdecl_ind from xtype_mind, xdecl_mind, xall_mind, xfields_mind.

(** ** Names that the generated code can carry *)
(** no two of the names have the same camel (snake) form *)
Definition camel_distinct (l : list string) : Prop :=
  NoDup l /\ forall x y z, In x l -> In y l -> camel_of x z -> camel_of y z -> x = y.
Definition snake_distinct (l : list string) : Prop :=
  NoDup l /\
  forall x y z, In x l -> In y l -> snaked (chars x) z -> snaked (chars y) z -> x = y.

(** a name for a variant: it has a camel form other than Self, and other than
    Error, with which the Self::Error of the trait impls would be ambiguous *)
Definition variant_name_ok (x : string) : Prop :=
  camelable x /\ ~ camel_of x "Self" /\ ~ camel_of x "Error".

(** type names that the generated code uses itself: preludes, imports, type
    parameters and local types of derived code, and Self *)
Definition taken : list string :=
  ["Self"; "String"; "Vec"; "Option"; "Box"; "Result"; "Default"; "Clone"; "Debug"; "PartialEq";
   "AsRef"; "TryFrom"; "Serialize"; "Deserialize"; "SerializeTuple"; "XdrIndexer"; "XdrUnion";
   "XdrIndexerVisitor"; "XdrUnionVisitor"; "S"; "D"; "A"].
Definition type_name_ok (x : string) : Prop :=
  camelable x /\ x <> "u8" /\ forall y, In y taken -> ~ camel_of x y.

(** a name for a field: a reserved word is emitted raw, which is not possible
    for the first four; otherwise its snake form is no word of Rust *)
Definition field_name_ok (x : string) : Prop :=
  ~ In x ["self"; "Self"; "super"; "crate"; "_"] /\
  (In x rust_words \/ forall y, snaked (chars x) (chars y) -> ~ In y rust_words).

(** constants: no small letter, hence neither a word of Rust nor a name bound
    in the generated code *)
Definition const_name_ok (x : string) : Prop :=
  x <> "_" /\ forall c, In c (chars x) -> ~ In c smalls.

(** ** Types whose encoding is claimed to be right *)
(** how a type can be used:
    - plain: everywhere;
    - fixed, variable: opaque data, in fields and (not all) arms;
    - std: an enum of the std-trait mode, as the type of a field;
    - dense: an enum of the std-trait mode whose values are 0, 1, 2, ..: not
      as the type of a field, but in arms and behind a typedef *)
Inductive kind := KPlain | KFixed | KVar | KStd | KDense.

Definition dense (ds : list definition) (l : list assign) : Prop :=
  forall a z, In a l -> value_is ds (as_value a) z -> 0 <= z < zlen l.

(** the length of an opaque array: a number or a constant *)
Definition length_ok (ds : list definition) (v : value) : Prop :=
  (exists z, value_is ds v z /\ 0 <= z <= 32) /\
  match v with VIdent x => In x (map fst (const_defs ds)) | VConst _ => True end.

Inductive tkind (cfg : config) (ds : list definition) : tyspec -> kind -> Prop :=
| tk_int s : tkind cfg ds (TsInt s) KPlain
| tk_hyper s : tkind cfg ds (TsHyper s) KPlain
| tk_float : tkind cfg ds TsFloat KPlain
| tk_double : tkind cfg ds TsDouble KPlain
| tk_bool : tkind cfg ds TsBool KPlain
| tk_char s : tkind cfg ds (TsChar s) KPlain
| tk_short s : tkind cfg ds (TsShort s) KPlain
| tk_enum x y l : first x (type_defs ds) (TdEnum y l) -> enum_impl_std_trait cfg = false ->
    tkind cfg ds (TsIdent x) KPlain
| tk_std x y l : first x (type_defs ds) (TdEnum y l) -> enum_impl_std_trait cfg = true ->
    tkind cfg ds (TsIdent x) KStd
| tk_dense x y l : first x (type_defs ds) (TdEnum y l) -> enum_impl_std_trait cfg = true ->
    dense ds l -> tkind cfg ds (TsIdent x) KDense
| tk_struct x y l : first x (type_defs ds) (TdStruct y l) -> tkind cfg ds (TsIdent x) KPlain
| tk_union x y u : first x (type_defs ds) (TdUnion y u) -> tkind cfg ds (TsIdent x) KPlain
| tk_typedef x d k : first x (type_defs ds) (TdDecl d) -> dkind cfg ds d k ->
    k = KPlain \/ k = KFixed \/ k = KVar -> tkind cfg ds (TsIdent x) k
| tk_typedef_dense x d : first x (type_defs ds) (TdDecl d) -> dkind cfg ds d KDense ->
    tkind cfg ds (TsIdent x) KPlain
with dkind (cfg : config) (ds : list definition) : decl -> kind -> Prop :=
| dk_variable t x k : tkind cfg ds t k -> dkind cfg ds (DVariable t x) k
| dk_array t x c z : tkind cfg ds t KPlain -> stands_for c z -> 0 <= z <= 32 ->
    dkind cfg ds (DFixedArray t x (VConst c)) KPlain
| dk_vararray t x max k : tkind cfg ds t k -> k = KPlain \/ k = KVar ->
    dkind cfg ds (DVariableArray t x max) KPlain
| dk_opaque x v : length_ok ds v -> dkind cfg ds (DOpaqueFixed x v) KFixed
| dk_varopaque x max : dkind cfg ds (DOpaqueVariable x max) KVar
| dk_string x max : dkind cfg ds (DString x max) KPlain
| dk_option t x : tkind cfg ds t KPlain -> dkind cfg ds (DOption t x) KPlain.

Scheme tkind_mind := Minimality for tkind Sort Prop
  with dkind_mind := Minimality for dkind Sort Prop.
Combined Scheme tkind_dkind_ind from tkind_mind, dkind_mind.

(** ** Definitions whose encoding is claimed to be right *)
Definition const_ok (ds : list definition) (c : string * value) : Prop :=
  const_name_ok (fst c) /\
  match snd c with
  | VConst k => exists z, stands_for k z /\ 0 <= z < 2 ^ 64
  | VIdent y => In y (map fst (const_defs ds)) /\ exists z, value_is ds (VIdent y) z /\ 0 <= z < 2 ^ 32
  end.

Definition enum_ok (cfg : config) (ds : list definition) (l : list assign) : Prop :=
  l <> [] /\ camel_distinct (map as_name l) /\ Forall variant_name_ok (map as_name l) /\
  (forall a, In a l -> exists z, value_is ds (as_value a) z /\ - 2 ^ 31 <= z < 2 ^ 31 /\
     (enum_complement_index cfg = true -> 0 <= z) /\
     (overflow_checks cfg = true -> z < 2 ^ 31 - 1)) /\
  (forall a b z, In a l -> In b l -> value_is ds (as_value a) z -> value_is ds (as_value b) z ->
     a = b).

Definition struct_ok (cfg : config) (ds : list definition) (l : list decl) : Prop :=
  (exists xs, Forall2 (fun d x => declared d = Some x) l xs /\
     snake_distinct xs /\ Forall field_name_ok xs) /\
  Forall (fun d => exists k, dkind cfg ds d k /\ k <> KDense) l.

(** the arms of a union *)
Definition arm_ok (cfg : config) (ds : list definition) (d : decl) : Prop :=
  d = DVoid \/ exists k, dkind cfg ds d k /\ k <> KStd /\
    (k = KFixed -> union_complement_index cfg = true).
Definition default_ok (cfg : config) (ds : list definition) (d : decl) : Prop :=
  d = DVoid \/ exists k, dkind cfg ds d k /\
    (union_impl_union cfg = true -> k = KPlain \/ k = KDense).

(** unsigned int, possibly through typedefs *)
Inductive is_uint (ds : list definition) : tyspec -> Prop :=
| iu_uint : is_uint ds (TsInt false)
| iu_typedef x t y : first x (type_defs ds) (TdDecl (DVariable t y)) -> is_uint ds t ->
    is_uint ds (TsIdent x).

(** the discriminant and the case labels *)
Definition disc_ok (cfg : config) (ds : list definition) (t : tyspec) (ls : list value) : Prop :=
  match t with
  | TsBool =>
      NoDup ls /\ (forall v, In v ls -> v = VIdent "FALSE" \/ v = VIdent "TRUE") /\
      (union_impl_union cfg = true -> In (VIdent "FALSE") ls /\ In (VIdent "TRUE") ls)
  | TsInt _ | TsIdent _ =>
      NoDup ls /\
      (forall v, In v ls -> exists x z, v = VIdent x /\ x <> "FALSE" /\ x <> "TRUE" /\
         value_is ds v z /\ 0 <= z < 2 ^ 32 /\
         (union_complement_index cfg = true -> z < 2 ^ 31) /\
         (overflow_checks cfg = true -> z < 2 ^ 32 - 1)) /\
      (forall v w z, In v ls -> In w ls -> value_is ds v z -> value_is ds w z -> v = w) /\
      (if union_impl_union cfg then
         is_uint ds t \/
         exists e y l, t = TsIdent e /\ first e (type_defs ds) (TdEnum y l) /\
           (enum_impl_std_trait cfg = true -> dense ds l) /\
           forall v, In v ls -> exists a, In a l /\ v = VIdent (as_name a)
       else exists k, tkind cfg ds t k)
  | _ => False
  end.

Definition label_names (ls : list value) : list string :=
  flat_map (fun v => match v with VIdent x => [x] | VConst _ => [] end) ls.

Definition union_supported (cfg : config) (ds : list definition) (u : ubody) : Prop :=
  match u with
  | UBody c specs dflt =>
      labels specs <> [] /\
      (exists t y, c = DVariable t y /\ disc_ok cfg ds t (labels specs)) /\
      camel_distinct (label_names (labels specs)) /\
      Forall variant_name_ok (label_names (labels specs)) /\
      Forall (fun s => match s with CaseSpec _ d => arm_ok cfg ds d end) specs /\
      match dflt with
      | Some d => default_ok cfg ds d /\
                  forall x, In x (label_names (labels specs)) -> ~ camel_of x "Default"
      | None => True
      end
  end.

(** ** Types of finite size: an item directly contains the items named by its
    fields and arms, except behind a variable-length array; a field that names
    the struct itself is boxed *)
Inductive holds (ds : list definition) : tyspec -> string -> Prop :=
| ho_item x t : first x (type_defs ds) t -> is_typedef t = false -> holds ds (TsIdent x) x
| ho_typedef x d y : first x (type_defs ds) (TdDecl d) -> dholds ds d y -> holds ds (TsIdent x) y
with dholds (ds : list definition) : decl -> string -> Prop :=
| dh_variable t x y : holds ds t y -> dholds ds (DVariable t x) y
| dh_array t x v y : holds ds t y -> dholds ds (DFixedArray t x v) y
| dh_option t x y : holds ds t y -> dholds ds (DOption t x) y.

Scheme holds_mind := Minimality for holds Sort Prop
  with dholds_mind := Minimality for dholds Sort Prop.
Combined Scheme holds_dholds_ind from holds_mind, dholds_mind.

Definition sized (ds : list definition) : Prop :=
  exists rank : string -> nat, forall x t, In (x, t) (type_defs ds) ->
    match t with
    | TdStruct _ l => forall d y, In d l -> dholds ds d y ->
        mentions d = Some (TsIdent x) \/ (rank y < rank x)%nat
    | TdUnion _ (UBody c specs dflt) => forall d y,
        d = c \/ Some d = dflt \/ (exists vs, In (CaseSpec vs d) specs) -> dholds ds d y ->
        (rank y < rank x)%nat
    | _ => True
    end.

(** ** The supported definitions *)
Record definitions_ok (cfg : config) (ds : list definition) : Prop := DefinitionsOk
  { do_scope : NoDup (map fst (const_defs ds) ++ map fst (member_defs ds))%list;
    do_types : NoDup (map fst (type_defs ds));
    do_names : camel_distinct (map fst (item_defs true ds)) /\
               Forall type_name_ok (map fst (item_defs true ds));
    do_well_founded : well_founded_names ds;
    do_consts : Forall (const_ok ds) (const_defs ds);
    do_items : forall x t, In (x, t) (type_defs ds) ->
      match t with
      | TdDecl _ => True
      | TdEnum _ l => enum_ok cfg ds l
      | TdStruct _ l => struct_ok cfg ds l
      | TdUnion _ u => union_supported cfg ds u
      end;
    do_sized : sized ds }.

(** the same for definitions that need not come from a text, and for
    configurations other than those of the command line tool *)
Record supported_defs (cfg : config) (ds : list definition) : Prop := SupportedDefs
  { sd_removal : remove_typedef cfg = true;
    sd_enum_mode : enum_impl_indexer cfg = false \/ enum_impl_std_trait cfg = false;
    sd_union_mode : union_impl_indexer cfg = false \/ union_impl_union cfg = false;
    sd_good : good_spec ds;
    sd_scope : NoDup (map fst (const_defs ds) ++ map fst (member_defs ds))%list;
    sd_types : NoDup (map fst (type_defs ds));
    sd_names : camel_distinct (map fst (item_defs true ds)) /\
               Forall type_name_ok (map fst (item_defs true ds));
    sd_well_founded : well_founded_names ds;
    sd_consts : Forall (const_ok ds) (const_defs ds);
    sd_items : forall x t, In (x, t) (type_defs ds) ->
      match t with
      | TdDecl _ => True
      | TdEnum _ l => enum_ok cfg ds l
      | TdStruct _ l => struct_ok cfg ds l
      | TdUnion _ u => union_supported cfg ds u
      end;
    sd_sized : sized ds }.
