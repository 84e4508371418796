(** Syntax of the Rust code emitted by rpcgen/src/gen_code.rs: the items that
    the [quote!] templates build, without the tokens that are the same in
    every item (visibility, Clone/Debug derives, method signatures). *)
From Verif Require Import Base RustTypes.

(** a Rust identifier; [true] for a raw one ([r#x]) *)
Inductive rident := Id (x : string) | RawId (x : string).

(** a literal of a u32/u64/usize/i32 or an identifier; gen_code.rs:701-719 *)
Inductive vtoken := TokNum (z : Z) | TokId (x : string).

(** types; gen_code.rs:721-801 *)
Inductive rty :=
| YInt (s : bool) (w : width) | YF32 | YF64 | YBool | YString
| YName (x : string)
| YArray (t : rty) (len : vtoken) (cast : bool)   (* [t; len] or [t; len as usize] *)
| YVec (t : rty)
| YVecVarArray                                    (* Vec<serde_xdr::opaque::VariableArray> *)
| YOption (t : rty)
| YBox (t : rty)
| YVarArray.                                      (* serde_xdr::opaque::VariableArray *)

(** serde(with = ..) attributes *)
Inductive attr := ANone | AFixed | AVariable | ASigned32.

(** derive(Serialize, Deserialize), derive(XdrIndexer), derive(XdrUnion) *)
Inductive derive := DvSerde | DvIndexer | DvUnion.

Record field := Field { fd_attr : attr; fd_name : rident; fd_ty : rty }.
Record variant := Variant { va_attr : attr; va_name : vtoken; va_tys : list rty }.

(** impl XdrIndexer: arms of name_by_index, its last arm (Ok of a name or
    Err(Convert)), arms of index (variant, with parentheses?, number), whether
    index ends with [_ => unimplemented!()] *)
Record indexer_impl := IndexerImpl
  { ix_names : list (Z * vtoken); ix_other : option vtoken;
    ix_index : list (vtoken * bool * Z); ix_unimplemented : bool }.

(** patterns of name_by_value: literals or [Type::Member] *)
Inductive pat := PtBool (b : bool) | PtNum (z : Z) | PtPath (t x : string).

(** impl XdrUnion: the discriminant type, the arms of name_by_value and its
    last arm (absent for bool) *)
Record union_impl := UnionImpl
  { ui_disc : option rty; ui_names : list (pat * vtoken); ui_other : option (option vtoken) }.

Record enum_item := EnumItem
  { en_name : string; en_derive : derive; en_values : list (string * Z); en_default : string;
    en_as_ref : option (list (string * Z)); en_try_from : option (list (Z * string));
    en_indexer : option indexer_impl }.
Record struct_item := StructItem { st_name : string; st_fields : list field }.
Record union_item := UnionItem
  { un_name : string; un_derive : derive; un_variants : list variant;
    un_default : vtoken * nat;                    (* variant and number of arguments *)
    un_indexer : option indexer_impl; un_union : option union_impl }.

(** [const x: u32 = v] (or u64 when [co_wide]) *)
Record const_item := ConstItem { co_name : string; co_wide : bool; co_value : vtoken }.

Inductive type_item :=
| IAlias (x : string) (t : rty)                   (* type x = t; *)
| IEnum (e : enum_item)
| IStruct (s : struct_item)
| IUnion (u : union_item).

(** the use declarations, gen_code.rs:120-138 *)
Inductive use_group := UseSerializeTuple | UseIndexer | UseUnion.

Record file := File
  { fi_uses : list use_group; fi_consts : list const_item; fi_types : list type_item }.
