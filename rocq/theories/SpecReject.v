(** Reasons for which the Rust compiler rejects a generated file.  Each one is
    sufficient; the list is not meant to be complete. *)
From Coq Require Import Relation_Operators.
From Verif Require Import Base RustTypes SpecCase RustAst SpecXdl.
Local Open Scope string_scope.

(** [t] occurs in [u] *)
Inductive within (t : rty) : rty -> Prop :=
| wi_here : within t t
| wi_array u len cast : within t u -> within t (YArray u len cast)
| wi_vec u : within t u -> within t (YVec u)
| wi_option u : within t u -> within t (YOption u)
| wi_box u : within t u -> within t (YBox u).

Definition name_of (i : type_item) : string :=
  match i with IAlias x _ => x | IEnum e => en_name e | IStruct s => st_name s | IUnion u => un_name u end.
(** the types that a struct or a union stores *)
Definition stored (i : type_item) : list rty :=
  match i with
  | IStruct s => map fd_ty (st_fields s)
  | IUnion u => flat_map va_tys (un_variants u)
  | _ => []
  end.
Definition stores (f : file) (t : rty) : Prop := exists i u, In i (fi_types f) /\ In u (stored i) /\ within t u.
(** in a struct, which derives Default *)
Definition fielded (f : file) (t : rty) : Prop := exists s fd, In (IStruct s) (fi_types f) /\ In fd (st_fields s) /\ within t (fd_ty fd).

(** the value of a literal or of a constant of the file *)
Inductive token_is (f : file) : vtoken -> Z -> Prop :=
| ti_number z : token_is f (TokNum z) z
| ti_const c z : In c (fi_consts f) -> token_is f (co_value c) z -> token_is f (TokId (co_name c)) z.

(** what the functions of [serde(with = ..)] take: opaque.rs:87-120 ([u8; N]),
    opaque.rs:122-160 (Vec<u8>), primitive.rs:1-22 (AsRef<i32> and TryFrom<i32>, which no
    type of the standard library in a generated file implements) *)
Definition suits (a : attr) (t : rty) : Prop :=
  match a with
  | ANone => True
  | AFixed => exists len cast, t = YArray (YInt false W8) len cast
  | AVariable => t = YVec (YInt false W8)
  | ASigned32 => exists x, t = YName x
  end.

(** [y] is stored inside a value of the item [x], without indirection *)
Inductive inside (y : string) : rty -> Prop :=
| is_name : inside y (YName y)
| is_array u len cast : inside y u -> inside y (YArray u len cast)
| is_option u : inside y u -> inside y (YOption u).
Inductive embeds (f : file) : string -> string -> Prop :=
| ho_item i u y : In i (fi_types f) -> In u (stored i) -> inside y u -> embeds f (name_of i) y.

Inductive rejected (f : file) : Prop :=
(** E0428: two types of the same name *)
| rej_twice : ~ NoDup (map name_of (fi_types f)) -> rejected f
(** a type named by a keyword *)
| rej_keyword i : In i (fi_types f) -> In (name_of i) rust_words -> rejected f
(** E0412: a type that is neither defined nor known *)
| rej_undefined x : stores f (YName x) -> (forall i, In i (fi_types f) -> name_of i <> x) -> ~ In x taken -> rejected f
(** E0425: the value of a constant or the length of an array is no constant of the file *)
| rej_unbound c : (exists k, In k (fi_consts f) /\ co_value k = TokId c) \/ (exists t cast, stores f (YArray t (TokId c) cast)) ->
    (forall k, In k (fi_consts f) -> co_name k <> c) -> rejected f
(** E0308 (or E0425): the length of an array is a usize, all constants of the file are u32 or u64 *)
| rej_length t c : stores f (YArray t (TokId c) false) -> rejected f
(** E0277: no Default (nor Serialize and Deserialize) for arrays of more than 32 elements *)
| rej_long t len cast z : fielded f (YArray t len cast) -> token_is f len z -> 32 < z -> rejected f
(** E0277/E0308: [serde(with = ..)] does not fit the type of the field *)
| rej_with s fd : In (IStruct s) (fi_types f) -> In fd (st_fields s) -> ~ suits (fd_attr fd) (fd_ty fd) -> rejected f
(** E0308: the literals of name_by_value are u32, the discriminant is not *)
| rej_literal u ui z v d : In (IUnion u) (fi_types f) -> un_union u = Some ui -> In (PtNum z, v) (ui_names ui) ->
    ui_disc ui = Some d -> match d with YInt false W32 | YName _ => False | _ => True end -> rejected f
(** a variant named by a number *)
| rej_number u va z : In (IUnion u) (fi_types f) -> In va (un_variants u) -> va_name va = TokNum z -> rejected f
(** E0072: a type that contains itself *)
| rej_infinite x : clos_trans string (embeds f) x x -> rejected f.
