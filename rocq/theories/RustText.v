(** Model of the text that rpcgen prints: the [quote!] templates of
    rpcgen/src/gen_code.rs, as the tokens that they append, and the printing of
    a token stream (gen_code.rs:149, main.rs:45).

    proc-macro2 and quote are not in /repo.  Outside of a procedural macro the
    fallback implementation of proc-macro2 is used; [tokens_of] is what the
    helpers of quote append to it and [show] its [Display]. *)
From Verif Require Import Base RustTypes Nom GenModel RustAst.
Local Open Scope string_scope.
Local Open Scope list_scope.

Inductive delim := Paren | Bracket | Brace.

(** ** proc_macro2::TokenTree.  A punctuation character is joint when it is
    printed without a space behind it. *)
Inductive token :=
| TkIdent (i : rident)
| TkPunct (c : ascii) (joint : bool)
| TkLit (t : text)
| TkGroup (d : delim) (ts : list token).

Definition is_joint (t : token) : bool :=
  match t with TkPunct _ j => j | _ => false end.

Definition show_ident (i : rident) : text :=
  match i with Id x => chars x | RawId x => chars "r#" ++ chars x end.
Definition opening (d : delim) : text :=
  match d with Paren => chars "(" | Bracket => chars "[" | Brace => chars "{ " end.
Definition closing (d : delim) : text :=
  match d with Paren => chars ")" | Bracket => chars "]" | Brace => chars "}" end.

(** Display for TokenStream: a space between two tokens unless the first one is
    joint ([glue]); Display for Group: braces have a space inside *)
Fixpoint show_token (t : token) : text :=
  match t with
  | TkIdent i => show_ident i
  | TkPunct c _ => [c]
  | TkLit t => t
  | TkGroup d ts =>
      opening d ++
      (fix show (glue : bool) (ts : list token) : text :=
         match ts with
         | [] => []
         | t :: ts => (if glue then [] else chars " ") ++ show_token t ++ show (is_joint t) ts
         end) true ts ++
      (match d, ts with Brace, _ :: _ => chars " " | _, _ => [] end) ++
      closing d
  end.
Fixpoint show (glue : bool) (ts : list token) : text :=
  match ts with
  | [] => []
  | t :: ts => (if glue then [] else chars " ") ++ show_token t ++ show (is_joint t) ts
  end.

(** ** What the expansion of [quote!] appends: identifiers, operators (the
    characters of one operator are joint, the last one is not), lifetimes,
    integers with the suffix of their type, string literals, groups *)
Inductive call :=
| CIdent (i : rident)
| COp (s : string)
| CLife (x : string)
| CInt (z : Z) (suffix : string)
| CStr (s : string)
| CGroup (d : delim) (cs : list call).

Fixpoint puncts (t : text) : list token :=
  match t with
  | [] => []
  | [c] => [TkPunct c false]
  | c :: t => TkPunct c true :: puncts t
  end.

(** the fallback TokenStream splits a negative literal into a minus sign and a
    literal *)
Fixpoint tokens_of (c : call) : list token :=
  match c with
  | CIdent i => [TkIdent i]
  | COp s => puncts (chars s)
  | CLife x => [TkPunct "'" true; TkIdent (Id x)]
  | CInt z suffix =>
      (if (z <? 0)%Z then [TkPunct "-" false] else []) ++ [TkLit (to_decimal (Z.abs z) ++ chars suffix)]
  | CStr s => [TkLit (""""%char :: chars s ++ [""""%char])]
  | CGroup d cs => [TkGroup d (flat_map tokens_of cs)]
  end.

(** ** The templates *)
Definition w (x : string) : list call := [CIdent (Id x)].
Definition o (s : string) : list call := [COp s].
Definition parens (l : list call) : list call := [CGroup Paren l].
Definition brackets (l : list call) : list call := [CGroup Bracket l].
Definition braces (l : list call) : list call := [CGroup Brace l].
Definition num (suffix : string) (z : Z) : list call := [CInt z suffix].

(** [a::b] *)
Definition dcolon (a b : list call) : list call := a ++ o "::" ++ b.
(** [#(..),*] *)
Fixpoint commas (l : list (list call)) : list call :=
  match l with
  | [] => []
  | [a] => a
  | a :: l => a ++ o "," ++ commas l
  end.
(** [pattern => body] *)
Definition arm (p b : list call) : list call := p ++ o "=>" ++ b.

(** serde_xdr::opaque::VariableArray, serde_xdr::error::Error *)
Definition var_array : list call := dcolon (w "serde_xdr") (dcolon (w "opaque") (w "VariableArray")).
Definition xdr_error : list call := dcolon (w "serde_xdr") (dcolon (w "error") (w "Error")).
Definition global_error : list call := o "::" ++ xdr_error.
(** stringify!(..), Ok(..) *)
Definition stringify (l : list call) : list call := w "stringify" ++ o "!" ++ parens l.
Definition ok (l : list call) : list call := w "Ok" ++ parens l.
(** [Err(::serde_xdr::error::Error::Convert)] *)
Definition err_convert : list call := w "Err" ++ parens (dcolon global_error (w "Convert")).
(** [type Error = ::serde_xdr::error::Error;] *)
Definition type_error (e : list call) : list call :=
  w "type" ++ w "Error" ++ o "=" ++ e ++ o ";".
(** [Result<&'static str, Self::Error>] *)
Definition result_str : list call :=
  w "Result" ++ o "<" ++ o "&" ++ [CLife "static"] ++ w "str" ++ o "," ++
  dcolon (w "Self") (w "Error") ++ o ">".

(** convert_value_token, gen_code.rs:701-719; the suffix is the type [T] *)
Definition value_calls (suffix : string) (v : vtoken) : list call :=
  match v with TokNum z => num suffix z | TokId x => w x end.

Definition int_name (s : bool) (k : width) : string :=
  match s, k with
  | true, W8 => "i8" | true, W16 => "i16" | true, W32 => "i32" | true, W64 => "i64" | true, W128 => "i128"
  | false, W8 => "u8" | false, W16 => "u16" | false, W32 => "u32" | false, W64 => "u64" | false, W128 => "u128"
  end.

(** convert_type_token and convert_primitive_token, gen_code.rs:721-801;
    Box<..>, 413 *)
Fixpoint ty_calls (t : rty) : list call :=
  match t with
  | YInt s k => w (int_name s k)
  | YF32 => w "f32"
  | YF64 => w "f64"
  | YBool => w "bool"
  | YString => w "String"
  | YName x => w x
  | YArray t len cast =>
      brackets (ty_calls t ++ o ";" ++ value_calls "usize" len ++
                (if cast then w "as" ++ w "usize" else []))
  | YVec t => w "Vec" ++ o "<" ++ ty_calls t ++ o ">"
  | YVecVarArray => w "Vec" ++ o "<" ++ var_array ++ o ">"
  | YOption t => w "Option" ++ o "<" ++ ty_calls t ++ o ">"
  | YBox t => w "Box" ++ o "<" ++ ty_calls t ++ o ">"
  | YVarArray => var_array
  end.

(** [#[serde(with = "..")]], gen_code.rs:391-402, 838-840 *)
Definition attr_calls (a : attr) : list call :=
  let with_ s := o "#" ++ brackets (w "serde" ++ parens (w "with" ++ o "=" ++ [CStr s])) in
  match a with
  | ANone => []
  | AFixed => with_ "serde_xdr::opaque::fixed"
  | AVariable => with_ "serde_xdr::opaque::variable"
  | ASigned32 => with_ "serde_xdr::primitive::signed32"
  end.

(** [#[derive(..)]] *)
Definition derive_calls (l : list string) : list call :=
  o "#" ++ brackets (w "derive" ++ parens (commas (map w l))).

(** [impl Default for X { fn default() -> Self { X::v } }], gen_code.rs:363-367,
    686-690 *)
Definition default_impl (x : string) (v : list call) : list call :=
  w "impl" ++ w "Default" ++ w "for" ++ w x ++ braces
    (w "fn" ++ w "default" ++ parens [] ++ o "->" ++ w "Self" ++ braces (dcolon (w x) v)).

(** [_ => ..,] *)
Definition wild_arm (b : list call) : list call := arm (w "_") b ++ o ",".

(** impl XdrIndexer of an enum (323-342) and of a union (621-653).  The last
    arm of name_by_index is [_ => Ok(stringify!(..)),] or
    [_ => Err(..),]; an enum has no last arm in index. *)
Definition indexer_calls (x : string) (ix : indexer_impl) : list call :=
  w "impl" ++ w "XdrIndexer" ++ w "for" ++ w x ++ braces
    (type_error global_error ++
     w "fn" ++ w "name_by_index" ++ parens (w "index" ++ o ":" ++ w "i32") ++ o "->" ++ result_str ++ braces
       (w "match" ++ w "index" ++ braces
          (commas (map (fun p => arm (num "i32" (fst p)) (ok (stringify (value_calls "u32" (snd p)))))
                       (ix_names ix)) ++ o "," ++
           wild_arm match ix_other ix with
                    | Some v => ok (stringify (value_calls "u32" v))
                    | None => err_convert
                    end)) ++
     w "fn" ++ w "index" ++ parens (o "&" ++ w "self") ++ o "->" ++ w "i32" ++ braces
       (w "match" ++ w "self" ++ braces
          (commas (map (fun p => match p with (v, paren, z) =>
                     arm (dcolon (w x) (value_calls "u32" v ++ if paren : bool then parens (w "_") else []))
                         (num "i32" z) end) (ix_index ix)) ++ o "," ++
           if ix_unimplemented ix then wild_arm (w "unimplemented" ++ o "!" ++ parens []) else []))).

(** impl XdrUnion, gen_code.rs:655-681; an absent discriminant type appends
    nothing *)
Definition pat_calls (p : pat) : list call :=
  match p with
  | PtBool b => w (if b then "true" else "false")
  | PtNum z => num "u32" z
  | PtPath t x => dcolon (w t) (w x)
  end.
Definition union_calls (x : string) (ui : union_impl) : list call :=
  let disc := match ui_disc ui with Some t => ty_calls t | None => [] end in
  w "impl" ++ w "XdrUnion" ++ o "<" ++ disc ++ o ">" ++ w "for" ++ w x ++ braces
    (type_error global_error ++
     w "fn" ++ w "name_by_value" ++ parens (w "value" ++ o ":" ++ o "&" ++ disc) ++ o "->" ++ result_str ++ braces
       (w "match" ++ w "value" ++ braces
          (commas (map (fun p => arm (pat_calls (fst p)) (ok (stringify (value_calls "u32" (snd p)))))
                       (ui_names ui)) ++ o "," ++
           match ui_other ui with
           | Some (Some v) => wild_arm (ok (stringify (value_calls "u32" v)))
           | Some None => wild_arm err_convert
           | None => []
           end))).

(** convert_enum_token, gen_code.rs:237-376 *)
Definition as_ref_calls (x : string) (l : list (string * Z)) : list call :=
  w "impl" ++ w "AsRef" ++ o "<" ++ w "i32" ++ o ">" ++ w "for" ++ w x ++ braces
    (w "fn" ++ w "as_ref" ++ parens (o "&" ++ w "self") ++ o "->" ++
     o "&" ++ [CLife "static"] ++ w "i32" ++ braces
       (w "match" ++ w "self" ++ braces
          (commas (map (fun p => arm (dcolon (w x) (w (fst p))) (o "&" ++ num "i32" (snd p))) l)))).
Definition try_from_calls (x : string) (l : list (Z * string)) : list call :=
  w "impl" ++ w "TryFrom" ++ o "<" ++ w "i32" ++ o ">" ++ w "for" ++ w x ++ braces
    (type_error xdr_error ++
     w "fn" ++ w "try_from" ++ parens (w "v" ++ o ":" ++ w "i32") ++ o "->" ++
     w "Result" ++ o "<" ++ w "Self" ++ o "," ++ xdr_error ++ o ">" ++ braces
       (w "match" ++ w "v" ++ braces
          (commas (map (fun p => arm (num "i32" (fst p)) (ok (dcolon (w x) (w (snd p))))) l) ++ o "," ++
           wild_arm (w "Err" ++ parens (dcolon xdr_error (w "Convert")))))).
Definition option_calls {A} (f : A -> list call) (a : option A) : list call :=
  match a with Some a => f a | None => [] end.

Definition enum_derives (d : derive) : list string :=
  match d with
  | DvIndexer => ["Clone"; "Debug"; "PartialEq"; "XdrIndexer"]
  | _ => ["Clone"; "Debug"; "Deserialize"; "PartialEq"; "Serialize"]
  end.
Definition enum_calls (e : enum_item) : list call :=
  derive_calls (enum_derives (en_derive e)) ++
  o "#" ++ brackets (w "repr" ++ parens (w "i32")) ++
  w "pub" ++ w "enum" ++ w (en_name e) ++ braces
    (commas (map (fun p => w (fst p) ++ o "=" ++ num "i32" (snd p)) (en_values e))) ++
  default_impl (en_name e) (w (en_default e)) ++
  option_calls (as_ref_calls (en_name e)) (en_as_ref e) ++
  option_calls (try_from_calls (en_name e)) (en_try_from e) ++
  option_calls (indexer_calls (en_name e)) (en_indexer e).

(** convert_struct_token, gen_code.rs:378-428 *)
Definition field_calls (fd : field) : list call :=
  attr_calls (fd_attr fd) ++ w "pub" ++ [CIdent (fd_name fd)] ++ o ":" ++ ty_calls (fd_ty fd).
Definition struct_calls (s : struct_item) : list call :=
  derive_calls ["Clone"; "Debug"; "Default"; "Deserialize"; "Serialize"] ++
  w "pub" ++ w "struct" ++ w (st_name s) ++ braces (commas (map field_calls (st_fields s))).

(** convert_union_token, gen_code.rs:430-699, and the variants of
    convert_case_token, 843-878 *)
Definition union_derives (d : derive) : list string :=
  match d with
  | DvIndexer => ["Clone"; "Debug"; "XdrIndexer"]
  | DvUnion => ["Clone"; "Debug"; "XdrUnion"]
  | DvSerde => ["Clone"; "Debug"; "Deserialize"; "Serialize"]
  end.
Definition variant_calls (v : variant) : list call :=
  attr_calls (va_attr v) ++ value_calls "u32" (va_name v) ++
  match va_tys v with [] => [] | l => parens (commas (map ty_calls l)) end.
Definition default_calls (d : vtoken * nat) : list call :=
  value_calls "u32" (fst d) ++
  match snd d with
  | O => []
  | n => parens (commas (repeat (dcolon (w "Default") (w "default" ++ parens [])) n))
  end.
Definition union_item_calls (u : union_item) : list call :=
  derive_calls (union_derives (un_derive u)) ++
  w "pub" ++ w "enum" ++ w (un_name u) ++ braces (commas (map variant_calls (un_variants u))) ++
  default_impl (un_name u) (default_calls (un_default u)) ++
  option_calls (indexer_calls (un_name u)) (un_indexer u) ++
  option_calls (union_calls (un_name u)) (un_union u).

(** constants_token, gen_code.rs:196-198 *)
Definition const_calls (c : const_item) : list call :=
  let ty := if co_wide c then "u64" else "u32" in
  w "pub" ++ w "const" ++ w (co_name c) ++ o ":" ++ w ty ++ o "=" ++ value_calls ty (co_value c) ++ o ";".

(** types_token, gen_code.rs:203-235 *)
Definition type_calls (i : type_item) : list call :=
  match i with
  | IAlias x t => w "type" ++ w x ++ o "=" ++ ty_calls t ++ o ";"
  | IEnum e => enum_calls e
  | IStruct s => struct_calls s
  | IUnion u => union_item_calls u
  end.

(** gen_code, gen_code.rs:120-147 *)
Definition use_calls (a b : list call) : list call := w "use" ++ dcolon a b ++ o ";".
Definition group_calls (g : use_group) : list call :=
  match g with
  | UseSerializeTuple => use_calls (w "serde") (dcolon (w "ser") (w "SerializeTuple"))
  | UseIndexer => use_calls (w "serde_xdr") (w "XdrIndexer") ++ use_calls (w "serde_xdr_derive") (w "XdrIndexer")
  | UseUnion => use_calls (w "serde_xdr") (w "XdrUnion") ++ use_calls (w "serde_xdr_derive") (w "XdrUnion")
  end.
Definition file_calls (f : file) : list call :=
  use_calls (w "serde") (braces (w "Deserialize" ++ o "," ++ w "Serialize")) ++
  flat_map group_calls (fi_uses f) ++
  flat_map const_calls (fi_consts f) ++
  flat_map type_calls (fi_types f).

(** [binding.to_string()], gen_code.rs:149 *)
Definition file_text (f : file) : text := show true (flat_map tokens_of (file_calls f)).

(** rpcgen's standard output, main.rs:45: the text and a line feed *)
Definition printed (f : file) : text := file_text f ++ [ascii_of_nat 10].
