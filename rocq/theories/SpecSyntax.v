(** The Rust items that an emitted file (RustAst.v) stands for, as Rust syntax
    (SpecRust.v), and which files can be written down as Rust. *)
From Verif Require Import Base RustTypes SpecCase SpecRust RustAst.
Local Open Scope string_scope.
Local Open Scope list_scope.

(** ** Items *)
Definition plain (l : list string) : path := Path false l.
Definition ty1 (x : string) : stype := SyPath (plain [x]) [].
Definition ty1_of (x : string) (args : list stype) : stype := SyPath (plain [x]) args.

Definition int_expr (suffix : string) (z : Z) : sexpr :=
  if (z <? 0)%Z then SeNeg (SeInt (- z) suffix) else SeInt z suffix.
Definition value_expr (suffix : string) (v : vtoken) : sexpr :=
  match v with TokNum z => int_expr suffix z | TokId x => SePath (plain [x]) end.
(** the name of a variant *)
Definition token_name (v : vtoken) : string := match v with TokId x => x | TokNum _ => "" end.

Definition int_word (s : bool) (k : width) : string :=
  (if s then "i" else "u") ++
  match k with W8 => "8" | W16 => "16" | W32 => "32" | W64 => "64" | W128 => "128" end.
Definition variable_array : stype := SyPath (plain ["serde_xdr"; "opaque"; "VariableArray"]) [].

Fixpoint type_of (t : rty) : stype :=
  match t with
  | YInt s k => ty1 (int_word s k)
  | YF32 => ty1 "f32"
  | YF64 => ty1 "f64"
  | YBool => ty1 "bool"
  | YString => ty1 "String"
  | YName x => ty1 x
  | YArray t len cast =>
      let e := value_expr "usize" len in
      SyArray (type_of t) (if cast then SeCast e (ty1 "usize") else e)
  | YVec t => ty1_of "Vec" [type_of t]
  | YVecVarArray => ty1_of "Vec" [variable_array]
  | YOption t => ty1_of "Option" [type_of t]
  | YBox t => ty1_of "Box" [type_of t]
  | YVarArray => variable_array
  end.

Definition attrs_of (a : attr) : list sattr :=
  let with_ s := [Attr "serde" [MeValue "with" s]] in
  match a with
  | ANone => []
  | AFixed => with_ "serde_xdr::opaque::fixed"
  | AVariable => with_ "serde_xdr::opaque::variable"
  | ASigned32 => with_ "serde_xdr::primitive::signed32"
  end.
Definition derives (l : list string) : sattr := Attr "derive" (map MeWord l).

Definition error_path (global : bool) (more : list string) : path :=
  Path global (["serde_xdr"; "error"; "Error"] ++ more).
(** Ok(stringify!(x)), Err(Convert) *)
Definition named (x : string) : sexpr := SeCall (plain ["Ok"]) [SeMacro "stringify" [Leaf (LWord x)]].
Definition convert (global : bool) : sexpr :=
  SeCall (plain ["Err"]) [SePath (error_path global ["Convert"])].
Definition static_str : stype :=
  ty1_of "Result" [SyRef (Some "static") (ty1 "str"); SyPath (plain ["Self"; "Error"]) []].
Definition error_type (global : bool) : member := MbType "Error" (SyPath (error_path global []) []).
Definition matching (x : string) (arms : list (spat * sexpr)) : sexpr := SeMatch (SePath (plain [x])) arms.

Definition default_of (x : string) (v : sexpr) : sitem :=
  SiImpl (ty1 "Default") (ty1 x) [MbFn "default" [] (ty1 "Self") v].

Definition indexer_of (x : string) (ix : indexer_impl) : sitem :=
  SiImpl (ty1 "XdrIndexer") (ty1 x)
    [error_type true;
     MbFn "name_by_index" [PaTyped "index" (ty1 "i32")] static_str
       (matching "index"
          (map (fun p => (SpInt (fst p) "i32", named (token_name (snd p)))) (ix_names ix) ++
           [(SpWild, match ix_other ix with Some v => named (token_name v) | None => convert true end)]));
     MbFn "index" [PaSelf] (ty1 "i32")
       (matching "self"
          (map (fun p => match p with (v, paren, z) =>
                  (let q := plain [x; token_name v] in if paren : bool then SpTuple q [SpWild] else SpPath q,
                   int_expr "i32" z) end) (ix_index ix) ++
           if ix_unimplemented ix then [(SpWild, SeMacro "unimplemented" [])] else []))].

Definition pattern_of (p : pat) : spat :=
  match p with
  | PtBool b => SpBool b
  | PtNum z => SpInt z "u32"
  | PtPath t x => SpPath (plain [t; x])
  end.
Definition union_of (x : string) (ui : union_impl) : list sitem :=
  match ui_disc ui with
  | None => []
  | Some d =>
      [SiImpl (ty1_of "XdrUnion" [type_of d]) (ty1 x)
         [error_type true;
          MbFn "name_by_value" [PaTyped "value" (SyRef None (type_of d))] static_str
            (matching "value"
               (map (fun p => (pattern_of (fst p), named (token_name (snd p)))) (ui_names ui) ++
                match ui_other ui with
                | Some (Some v) => [(SpWild, named (token_name v))]
                | Some None => [(SpWild, convert true)]
                | None => []
                end))]]
  end.

Definition as_ref_of (x : string) (l : list (string * Z)) : sitem :=
  SiImpl (ty1_of "AsRef" [ty1 "i32"]) (ty1 x)
    [MbFn "as_ref" [PaSelf] (SyRef (Some "static") (ty1 "i32"))
       (matching "self"
          (map (fun p => (SpPath (plain [x; fst p]), SeRef (int_expr "i32" (snd p)))) l))].
Definition try_from_of (x : string) (l : list (Z * string)) : sitem :=
  SiImpl (ty1_of "TryFrom" [ty1 "i32"]) (ty1 x)
    [error_type false;
     MbFn "try_from" [PaTyped "v" (ty1 "i32")]
       (ty1_of "Result" [ty1 "Self"; SyPath (error_path false []) []])
       (matching "v"
          (map (fun p => (SpInt (fst p) "i32", SeCall (plain ["Ok"]) [SePath (plain [x; snd p])])) l ++
           [(SpWild, convert false)]))].

Definition option_items {A} (f : A -> list sitem) (a : option A) : list sitem :=
  match a with Some a => f a | None => [] end.

Definition enum_items (e : enum_item) : list sitem :=
  let x := en_name e in
  [SiEnum [derives (match en_derive e with
                    | DvIndexer => ["Clone"; "Debug"; "PartialEq"; "XdrIndexer"]
                    | _ => ["Clone"; "Debug"; "Deserialize"; "PartialEq"; "Serialize"]
                    end);
           Attr "repr" [MeWord "i32"]] true x
     (map (fun p => SVariant [] (fst p) None (Some (int_expr "i32" (snd p)))) (en_values e));
   default_of x (SePath (plain [x; en_default e]))] ++
  option_items (fun l => [as_ref_of x l]) (en_as_ref e) ++
  option_items (fun l => [try_from_of x l]) (en_try_from e) ++
  option_items (fun i => [indexer_of x i]) (en_indexer e).

Definition struct_items (s : struct_item) : list sitem :=
  [SiStruct [derives ["Clone"; "Debug"; "Default"; "Deserialize"; "Serialize"]] true (st_name s)
     (map (fun fd => SField (attrs_of (fd_attr fd)) true
                       (match fd_name fd with Id x | RawId x => x end) (type_of (fd_ty fd))) (st_fields s))].

Definition union_items (u : union_item) : list sitem :=
  let x := un_name u in
  let '(v, n) := un_default u in
  [SiEnum [derives (match un_derive u with
                    | DvIndexer => ["Clone"; "Debug"; "XdrIndexer"]
                    | DvUnion => ["Clone"; "Debug"; "XdrUnion"]
                    | DvSerde => ["Clone"; "Debug"; "Deserialize"; "Serialize"]
                    end)] true x
     (map (fun v => SVariant (attrs_of (va_attr v)) (token_name (va_name v))
                      (match va_tys v with [] => None | l => Some (map type_of l) end) None)
          (un_variants u));
   default_of x
     (let q := plain [x; token_name v] in
      match n with
      | O => SePath q
      | _ => SeCall q (repeat (SeCall (plain ["Default"; "default"]) []) n)
      end)] ++
  option_items (fun i => [indexer_of x i]) (un_indexer u) ++
  option_items (union_of x) (un_union u).

Definition type_items (i : type_item) : list sitem :=
  match i with
  | IAlias x t => [SiType false x (type_of t)]
  | IEnum e => enum_items e
  | IStruct s => struct_items s
  | IUnion u => union_items u
  end.
Definition const_item_of (c : const_item) : sitem :=
  let ty := if co_wide c then "u64" else "u32" in
  SiConst true (co_name c) (ty1 ty) (value_expr ty (co_value c)).
Definition use_items (g : use_group) : list sitem :=
  match g with
  | UseSerializeTuple => [SiUse ["serde"; "ser"] ["SerializeTuple"]]
  | UseIndexer => [SiUse ["serde_xdr"] ["XdrIndexer"]; SiUse ["serde_xdr_derive"] ["XdrIndexer"]]
  | UseUnion => [SiUse ["serde_xdr"] ["XdrUnion"]; SiUse ["serde_xdr_derive"] ["XdrUnion"]]
  end.
Definition items_of (f : file) : list sitem :=
  SiUse ["serde"] ["Deserialize"; "Serialize"] ::
  flat_map use_items (fi_uses f) ++ map const_item_of (fi_consts f) ++ flat_map type_items (fi_types f).

(** ** The names of a file, other than those of fields *)
Definition token_words (v : vtoken) : list string := match v with TokId x => [x] | TokNum _ => [] end.
Fixpoint type_words (t : rty) : list string :=
  match t with
  | YName x => [x]
  | YArray t len _ => type_words t ++ token_words len
  | YVec t | YOption t | YBox t => type_words t
  | _ => []
  end.
Definition option_words {A} (f : A -> list string) (a : option A) : list string :=
  match a with Some a => f a | None => [] end.
Definition indexer_words (ix : indexer_impl) : list string :=
  flat_map (fun p => token_words (snd p)) (ix_names ix) ++
  option_words token_words (ix_other ix) ++
  flat_map (fun p => token_words (fst (fst p))) (ix_index ix).
Definition pat_words (p : pat) : list string := match p with PtPath t x => [t; x] | _ => [] end.
Definition union_words (ui : union_impl) : list string :=
  option_words type_words (ui_disc ui) ++
  flat_map (fun p => pat_words (fst p) ++ token_words (snd p)) (ui_names ui) ++
  option_words (option_words token_words) (ui_other ui).
Definition item_words (i : type_item) : list string :=
  match i with
  | IAlias x t => x :: type_words t
  | IEnum e =>
      en_name e :: map fst (en_values e) ++ [en_default e] ++
      option_words (map fst) (en_as_ref e) ++ option_words (map snd) (en_try_from e) ++
      option_words indexer_words (en_indexer e)
  | IStruct s => st_name s :: flat_map (fun fd => type_words (fd_ty fd)) (st_fields s)
  | IUnion u =>
      un_name u ::
      flat_map (fun v => token_words (va_name v) ++ flat_map type_words (va_tys v)) (un_variants u) ++
      token_words (fst (un_default u)) ++
      option_words indexer_words (un_indexer u) ++ option_words union_words (un_union u)
  end.
Definition file_words (f : file) : list string :=
  flat_map (fun c => co_name c :: token_words (co_value c)) (fi_consts f) ++
  flat_map item_words (fi_types f).
Definition field_idents (f : file) : list rident :=
  flat_map (fun i => match i with IStruct s => map fd_name (st_fields s) | _ => [] end) (fi_types f).

(** ** Files that can be written down as Rust *)
(** the variants named by a token *)
Definition indexer_tokens (ix : indexer_impl) : list vtoken :=
  map snd (ix_names ix) ++ match ix_other ix with Some v => [v] | None => [] end ++
  map (fun p => fst (fst p)) (ix_index ix).
Definition is_word (v : vtoken) : Prop := match v with TokId _ => True | TokNum _ => False end.
(** arms that a comma follows *)
Definition indexer_legible (ix : indexer_impl) : Prop :=
  Forall is_word (indexer_tokens ix) /\ ix_names ix <> [] /\ ix_index ix <> [].
Definition union_legible (ui : union_impl) : Prop :=
  ui_disc ui <> None /\ Forall is_word (map snd (ui_names ui)) /\ ui_names ui <> [] /\
  match ui_other ui with Some (Some v) => is_word v | _ => True end.
Definition if_some {A} (P : A -> Prop) (a : option A) : Prop :=
  match a with Some a => P a | None => True end.
Definition item_legible (i : type_item) : Prop :=
  match i with
  | IEnum e => if_some (fun l => l <> []) (en_try_from e) /\ if_some indexer_legible (en_indexer e)
  | IUnion u =>
      Forall (fun v => is_word (va_name v)) (un_variants u) /\ is_word (fst (un_default u)) /\
      if_some indexer_legible (un_indexer u) /\ if_some union_legible (un_union u)
  | IAlias _ _ | IStruct _ => True
  end.

Definition legible (f : file) : Prop :=
  Forall (fun x => ~ In x rust_words /\ x <> "_") (file_words f) /\
  Forall (fun i => match i with Id x => ~ In x rust_words /\ x <> "_" | RawId _ => True end) (field_idents f) /\
  Forall item_legible (fi_types f).
