(** Model of rpcgen/src/gen_code.rs, function by function, producing the items
    of RustAst.v, and of the flag handling of rpcgen/src/main.rs. *)
From Verif Require Import Base RustTypes Nom Keyword Ast ParserModel CaseModel RustAst.
Local Open Scope string_scope.

Definition gbind {A B} (r : gres A) (f : A -> gres B) : gres B :=
  match r with GOk a => f a | GErr e => GErr e | GPanic => GPanic | GFuel => GFuel end.
Notation "x <~ e ;; f" := (gbind e (fun x => f))
  (at level 61, e at next level, right associativity).
Notation "' p <~ e ;; f" := (gbind e (fun p => f))
  (at level 61, p pattern, e at next level, right associativity).

Fixpoint gmap {A B} (f : A -> gres B) (l : list A) : gres (list B) :=
  match l with
  | [] => GOk []
  | a :: l => b <~ f a;; bs <~ gmap f l;; GOk (b :: bs)
  end.

(** Config, gen_code.rs:10-27.  [overflow_checks] is not a field of the Rust
    struct: it says whether rpcgen itself was built with overflow checks (debug
    profile) or not (release profile). *)
Record config := Config
  { remove_typedef : bool; enum_impl_indexer : bool; enum_impl_std_trait : bool;
    union_impl_indexer : bool; union_impl_union : bool; overflow_checks : bool }.
Definition enum_complement_index (c : config) : bool :=
  negb (enum_impl_indexer c) && negb (enum_impl_std_trait c).
Definition union_complement_index (c : config) : bool :=
  negb (union_impl_indexer c) && negb (union_impl_union c).

(** main.rs:29-43 *)
Record flags := Flags
  { use_std_trait : bool; use_extra_trait : bool; use_indexer : bool; use_union : bool }.
Definition main_config (f : flags) (checks : bool) : config :=
  let enum_impl_std_trait := use_std_trait f in
  let enum_impl_indexer := negb enum_impl_std_trait && use_indexer f in
  let union_impl_union := use_union f in
  let union_impl_indexer := negb union_impl_union && (use_extra_trait f || use_indexer f) in
  Config true enum_impl_indexer enum_impl_std_trait union_impl_indexer union_impl_union checks.

(** Context, gen_code.rs:29-33 *)
Record context := Context
  { cx_config : config; constants : list (string * value); typedefs : list (string * typedef) }.

(** Declaration::name, parser.rs:168-179 *)
Definition decl_name (d : decl) : option string :=
  match d with
  | DVariable _ x | DFixedArray _ x _ | DVariableArray _ x _ | DOpaqueFixed x _
  | DOpaqueVariable x _ | DString x _ | DOption _ x => Some x
  | DVoid => None
  end.
(** Declaration::type_specifier, parser.rs:181-192 *)
Definition decl_type (d : decl) : option tyspec :=
  match d with
  | DVariable t _ | DFixedArray t _ _ | DVariableArray t _ _ | DOption t _ => Some t
  | DOpaqueFixed _ _ | DOpaqueVariable _ _ => Some (TsIdent "u8")
  | DString _ _ => Some (TsIdent "String")
  | DVoid => None
  end.

(** setup_context, gen_code.rs:152-181 *)
Fixpoint setup_context (ds : list definition) : list (string * value) * list (string * typedef) :=
  match ds with
  | [] => ([], [])
  | d :: ds =>
      let '(cs, ts) := setup_context ds in
      match d with
      | DefConst a => ((as_name a, as_value a) :: cs, ts)
      | DefType t =>
          match t with
          | TdDecl d => match decl_name d with Some x => (cs, (x, t) :: ts) | None => (cs, ts) end
          | TdEnum x _ | TdStruct x _ | TdUnion x _ => (cs, (x, t) :: ts)
          end
      | DefLine | DefProgram _ => (cs, ts)
      end
  end.

(** Value::is_false, is_true, parser.rs:366-380 *)
Definition is_false (v : value) : bool :=
  match v with VIdent x => String.eqb x "FALSE" | _ => false end.
Definition is_true (v : value) : bool :=
  match v with VIdent x => String.eqb x "TRUE" | _ => false end.

(** proc_macro2's Ident::new (fallback implementation): panics unless the text
    is an identifier; keywords are accepted *)
Definition ident_text (t : text) : bool :=
  match t with
  | c :: t => (is_alpha c || Ascii.eqb c "_") && forallb (fun c => is_alphanum c || Ascii.eqb c "_") t
  | [] => false
  end.
Definition ident_new (t : text) : gres string := if ident_text t then GOk (str t) else GPanic.
(** Ident::new_raw: also refuses these five *)
Definition ident_new_raw (t : text) : gres string :=
  if ident_text t && negb (existsb (String.eqb (str t)) ["_"; "super"; "self"; "Self"; "crate"])
  then GOk (str t) else GPanic.
(** format_ident!("{}", t): a raw identifier when t starts with "r#" *)
Definition format_ident (t : text) : gres rident :=
  match strip (chars "r#") t with
  | Some t => x <~ ident_new_raw t;; GOk (RawId x)
  | None => x <~ ident_new t;; GOk (Id x)
  end.

(** upper_camel_case_ident, gen_code.rs:919-921; no "r#" can occur here *)
Definition upper_camel_case_ident (x : string) : gres string :=
  ident_new (upper_camel_case (chars x)).
(** snake_case_ident, gen_code.rs:972-974 *)
Definition snake_case_ident (x : string) : gres rident := format_ident (snake_case (chars x)).

(** to_string of an i32/u32 *)
Fixpoint digits_pos (fuel : nat) (z : Z) (acc : text) : text :=
  match fuel with
  | O => acc
  | S n =>
      let acc := ascii_of_N (Z.to_N (48 + z mod 10)) :: acc in
      if z <? 10 then acc else digits_pos n (z / 10) acc
  end%Z.
Definition to_decimal (z : Z) : text :=
  (if z <? 0 then "-"%char :: digits_pos 20 (- z) [] else digits_pos 20 z [])%Z.
(** format_ident!("_Reserved{}", z.to_string()), gen_code.rs:259, 461 *)
Definition reserved (z : Z) : gres string := ident_new (chars "_Reserved" ++ to_decimal z)%list.

(** start..end *)
Definition zrange (a b : Z) : list Z := map (fun k => a + Z.of_nat k)%Z (seq 0 (Z.to_nat (b - a))).

(** z + 1 in i32 (signed) or u32 arithmetic *)
Definition succ_checked (checks signed : bool) (z : Z) : gres Z :=
  let hi := (if signed then 2 ^ 31 - 1 else 2 ^ 32 - 1)%Z in
  if (z <? hi)%Z then GOk (z + 1)%Z
  else if checks then GPanic else GOk (if signed then - 2 ^ 31 else 0)%Z.

(** slice::sort_by_key, a stable sort *)
Fixpoint insert_by {A} (key : A -> Z) (a : A) (l : list A) : list A :=
  match l with
  | [] => [a]
  | b :: l' => if (key a <=? key b)%Z then a :: l else b :: insert_by key a l'
  end.
Definition sort_by {A} (key : A -> Z) (l : list A) : list A := fold_right (insert_by key) [] l.

Section WithContext.
  Variable cx : context.
  Let cfg := cx_config cx.

  (** is_enum_type, gen_code.rs:44-53 *)
  Definition is_enum_type (t : tyspec) : bool :=
    match t with
    | TsIdent name =>
        existsb (fun p => match snd p with TdEnum x _ => String.eqb name x | _ => false end)
                (typedefs cx)
    | _ => false
    end.

  (** ** Values *)
  (** the search of resolve_enum_value, gen_code.rs:75-82 *)
  Fixpoint find_member (name : string) (l : list (string * typedef)) : option value :=
    match l with
    | [] => None
    | (_, TdEnum _ assigns) :: l =>
        match find (fun a => String.eqb (as_name a) name) assigns with
        | Some a => Some (as_value a)
        | None => find_member name l
        end
    | _ :: l => find_member name l
    end.

  (** resolve_name, gen_code.rs:87-93, with resolve_const_value (55-69),
      resolve_enum_value (71-85) and resolve_value (95-104).  The bound [n] is
      on the length of the chain of names; the Rust code has none. *)
  Fixpoint resolve_name (n : nat) (k : intkind) (name : string) : gres Z :=
    match n with
    | O => GFuel
    | S n =>
        let resolve_value v :=
          match v with VConst c => constant_value k c | VIdent i => resolve_name n k i end in
        match
          match assoc String.eqb name (constants cx) with
          | Some v => resolve_value v
          | None => GErr (GNotFoundIdentifier name)
          end
        with
        | GErr _ =>
            match find_member name (typedefs cx) with
            | Some v => resolve_value v
            | None => GErr (GNotFoundIdentifier name)
            end
        | r => r
        end
    end.
  Definition resolve_value (n : nat) (k : intkind) (v : value) : gres Z :=
    match v with VConst c => constant_value k c | VIdent i => resolve_name n k i end.

  (** convert_value_token, gen_code.rs:701-719 *)
  Definition convert_value_token (k : intkind) (cnv : bool) (v : value) : gres vtoken :=
    match v with
    | VConst c => z <~ constant_value k c;; GOk (TokNum z)
    | VIdent i =>
        x <~ (if cnv then upper_camel_case_ident i else ident_new (chars i));; GOk (TokId x)
    end.

  (** constants_token, gen_code.rs:183-201 *)
  Definition constant_token (c : string * value) : gres const_item :=
    let '(name, v) := c in
    name_ident <~ ident_new (chars name);;
    match convert_value_token KU32 false v with
    | GErr _ => t <~ convert_value_token KU64 false v;; GOk (ConstItem name_ident true t)
    | GOk t => GOk (ConstItem name_ident false t)
    | GPanic => GPanic
    | GFuel => GFuel
    end.
  Definition constants_token : gres (list const_item) := gmap constant_token (constants cx).

  (** ** Types *)
  (** OpaqueType, gen_code.rs:106-111 *)
  Inductive opaque_type := OpNone | OpFixed | OpVariable.

  Section WithResolve.
    Variable resolve_type_token : string -> gres (rty * opaque_type).

    (** convert_primitive_token, gen_code.rs:763-801 *)
    Definition convert_primitive_token (t : tyspec) : gres (rty * opaque_type) :=
      match t with
      | TsInt s => GOk (YInt s W32, OpNone)
      | TsHyper s => GOk (YInt s W64, OpNone)
      | TsFloat => GOk (YF32, OpNone)
      | TsDouble => GOk (YF64, OpNone)
      | TsQuadruple => GErr GNotSupported
      | TsBool => GOk (YBool, OpNone)
      | TsEnum _ | TsStruct _ | TsUnion _ => GErr GNotSupported
      | TsIdent x => resolve_type_token x
      | TsChar s => GOk (YInt s W8, OpNone)
      | TsShort s => GOk (YInt s W16, OpNone)
      | TsVoid => GPanic
      end.

    (** convert_type_token, gen_code.rs:721-761 *)
    Definition convert_type_token (d : decl) : gres (option (rty * opaque_type)) :=
      match d with
      | DVariable t _ => r <~ convert_primitive_token t;; GOk (Some r)
      | DFixedArray t _ v =>
          '(ty, op) <~ convert_primitive_token t;;
          len <~ convert_value_token KUsize false v;;
          GOk (Some (YArray ty len false, op))
      | DVariableArray t _ _ =>
          '(ty, op) <~ convert_primitive_token t;;
          GOk (Some match op with
                    | OpVariable => (YVecVarArray, OpNone)
                    | _ => (YVec ty, op)
                    end)
      | DOpaqueFixed _ v =>
          len <~ convert_value_token KUsize false v;;
          GOk (Some (YArray (YInt false W8) len true, OpFixed))
      | DOpaqueVariable _ _ => GOk (Some (YVec (YInt false W8), OpVariable))
      | DString _ _ => GOk (Some (YString, OpNone))
      | DOption t _ =>
          '(ty, op) <~ convert_primitive_token t;; GOk (Some (YOption ty, op))
      | DVoid => GOk None
      end.
  End WithResolve.

  Definition required {A} (o : option A) : gres A :=
    match o with Some a => GOk a | None => GErr GNotSupported end.

  (** resolve_type_token, gen_code.rs:881-896; [n] bounds the chain of typedefs *)
  Fixpoint resolve_type_token (n : nat) (value : string) : gres (rty * opaque_type) :=
    match n with
    | O => GFuel
    | S n =>
        if remove_typedef cfg then
          match assoc String.eqb value (typedefs cx) with
          | Some (TdDecl d) =>
              o <~ convert_type_token (resolve_type_token n) d;; required o
          | _ => name <~ upper_camel_case_ident value;; GOk (YName name, OpNone)
          end
        else name <~ upper_camel_case_ident value;; GOk (YName name, OpNone)
    end.

  Section WithBound.
    Variable n : nat.
    Let type_token := convert_type_token (resolve_type_token n).

    (** ** convert_enum_token, gen_code.rs:237-376 *)
    Fixpoint enum_values (start : Z) (indexed : list (Z * string)) : gres (list (string * Z)) :=
      match indexed with
      | [] => GOk []
      | (e, x) :: rest =>
          fill <~ (if enum_complement_index cfg
                   then gmap (fun z => r <~ reserved z;; GOk (r, z)) (zrange start e) else GOk []);;
          item <~ upper_camel_case_ident x;;
          start <~ succ_checked (overflow_checks cfg) true e;;
          vs <~ enum_values start rest;;
          GOk (fill ++ (item, e) :: vs)%list
      end.

    Definition convert_enum_token (name : string) (assigns : list assign) : gres enum_item :=
      indexed <~ gmap (fun a => z <~ resolve_value n KI32 (as_value a);; GOk (z, as_name a)) assigns;;
      let indexed := sort_by fst indexed in
      name_ident <~ upper_camel_case_ident name;;
      values <~ enum_values 0 indexed;;
      items <~ gmap (fun p => x <~ upper_camel_case_ident (snd p);; GOk (x, fst p)) indexed;;
      let swapped := map (fun p => (snd p, fst p)) items in
      let std := enum_impl_std_trait cfg in
      let as_ref := if std then Some items else None in
      let try_from := if std then Some swapped else None in
      match items with
      | [] => GPanic                                        (* default_value.unwrap(), 356 *)
      | (dflt, _) :: _ =>
          let indexer :=
            if enum_impl_indexer cfg then
              Some (IndexerImpl (map (fun p => (fst p, TokId (snd p))) swapped) (Some (TokId dflt))
                                (map (fun p => (TokId (fst p), false, snd p)) items) false)
            else None in
          GOk (EnumItem name_ident (if enum_impl_indexer cfg then DvIndexer else DvSerde)
                        values dflt as_ref try_from indexer)
      end.

    (** ** convert_struct_token, gen_code.rs:378-428 *)
    Definition tyspec_is (name : string) (o : option tyspec) : bool :=
      match o with Some (TsIdent x) => String.eqb name x | _ => false end.

    Definition struct_field (name : string) (d : decl) : gres field :=
      match decl_name d with
      | None => GPanic                                      (* name().unwrap(), 387 *)
      | Some field_name =>
          o <~ type_token d;;
          '(ty, opaque) <~ required o;;
          let attr :=
            match opaque with
            | OpFixed => AFixed
            | OpVariable => AVariable
            | OpNone =>
                if enum_impl_std_trait cfg &&
                   match decl_type d with Some t => is_enum_type t | None => false end
                then ASigned32 else ANone
            end in
          let field_name := if rust_reserved field_name then "r#" ++ field_name else field_name in
          ident <~ snake_case_ident field_name;;
          let ty := if tyspec_is name (decl_type d) then YBox ty else ty in
          GOk (Field attr ident ty)
      end.

    Definition convert_struct_token (name : string) (ds : list decl) : gres struct_item :=
      fields <~ gmap (struct_field name) ds;;
      name_ident <~ upper_camel_case_ident name;;
      GOk (StructItem name_ident fields).

    (** ** convert_case_token, gen_code.rs:803-879: variant name, whether it has
        parentheses in patterns, variant, number of default arguments,
        discriminant type *)
    Record case_token := CaseToken
      { ct_name : vtoken; ct_paren : bool; ct_variant : variant; ct_args : nat; ct_cond : rty }.

    Definition convert_case_token (v : value) (d : decl) (cond : tyspec) : gres case_token :=
      name <~ convert_value_token KU32 true v;;
      cond_type <~ match convert_primitive_token (resolve_type_token n) cond with
                   | GErr _ => match cond with
                               | TsIdent c => x <~ upper_camel_case_ident c;; GOk (YName x)
                               | _ => GPanic
                               end
                   | r => '(ty, _) <~ r;; GOk ty
                   end;;
      o <~ type_token d;;
      GOk match o with
          | Some (v_ty, opaque) =>
              let wrapped := match opaque with OpNone => false | _ => negb (union_complement_index cfg) end in
              let v_ty := if wrapped then YVarArray else v_ty in
              let attr := if wrapped then ANone
                          else match opaque with
                               | OpFixed => AFixed | OpVariable => AVariable | OpNone => ANone
                               end in
              if union_impl_union cfg
              then CaseToken name true (Variant attr name [cond_type; v_ty]) 2 cond_type
              else CaseToken name true (Variant attr name [v_ty]) 1 cond_type
          | None =>
              if union_impl_union cfg
              then CaseToken name false (Variant ANone name [cond_type]) 1 cond_type
              else CaseToken name false (Variant ANone name []) 0 cond_type
          end.

    (** ** convert_union_token, gen_code.rs:430-699 *)
    (** what the two loops accumulate *)
    Record union_parts := UnionParts
      { up_specs : list variant; up_names : list (Z * vtoken); up_index : list (vtoken * bool * Z);
        up_values : list (pat * vtoken); up_default : option (vtoken * nat); up_cond : option rty }.
    Definition no_parts : union_parts := UnionParts [] [] [] [] None None.

    (** index as i32 *)
    Definition as_i32 (z : Z) : Z := if (z <? 2 ^ 31)%Z then z else (z - 2 ^ 32)%Z.

    Definition opt_first {A} (a b : option A) : option A := match a with Some _ => a | None => b end.

    Definition reserved_variant (z : Z) : gres variant :=
      r <~ reserved z;; GOk (Variant ANone (TokId r) []).

    (** the value loop, gen_code.rs:448-510 *)
    Fixpoint union_values (cond : tyspec) (sindex : Z) (values : list (Z * decl * value))
        (acc : union_parts) : gres union_parts :=
      match values with
      | [] => GOk acc
      | (eindex, d, v) :: rest =>
          fill <~ (if union_complement_index cfg
                   then gmap reserved_variant (zrange sindex eindex) else GOk []);;
          ct <~ convert_case_token v d cond;;
          by_value <~
            (if is_enum_type cond then
               match cond with
               | TsIdent c =>
                   c_ident <~ upper_camel_case_ident c;;
                   match v with
                   | VIdent x => x_ident <~ upper_camel_case_ident x;;
                                 GOk [(PtPath c_ident x_ident, ct_name ct)]
                   | VConst _ => GOk []
                   end
               | _ => GOk []
               end
             else GOk [(PtNum eindex, ct_name ct)]);;
          sindex <~ succ_checked (overflow_checks cfg) false eindex;;
          union_values cond sindex rest
            (UnionParts (up_specs acc ++ fill ++ [ct_variant ct])%list
                        (up_names acc ++ [(as_i32 eindex, ct_name ct)])%list
                        (up_index acc ++ [(ct_name ct, ct_paren ct, as_i32 eindex)])%list
                        (up_values acc ++ by_value)%list
                        (opt_first (up_default acc) (Some (ct_name ct, ct_args ct)))
                        (Some (ct_cond ct)))
      end.

    (** one of the two bool cases, gen_code.rs:512-591 *)
    Definition bool_case (cond : tyspec) (b : bool) (specs : list cspec) (acc : union_parts)
        : gres union_parts :=
      let test := if b then is_true else is_false in
      let z := if b then 1%Z else 0%Z in
      match find (fun s => match s with CaseSpec vs _ => existsb test vs end) specs with
      | Some (CaseSpec vs d) =>
          match find test vs with
          | Some v =>
              ct <~ convert_case_token v d cond;;
              GOk (UnionParts (up_specs acc ++ [ct_variant ct])%list
                              (up_names acc ++ [(z, ct_name ct)])%list
                              (up_index acc ++ [(ct_name ct, ct_paren ct, z)])%list
                              (up_values acc ++ [(PtBool b, ct_name ct)])%list
                              (opt_first (up_default acc) (Some (ct_name ct, ct_args ct)))
                              (up_cond acc))
          | None => GPanic
          end
      | None =>
          if union_complement_index cfg then
            r <~ reserved_variant z;;
            GOk (UnionParts (up_specs acc ++ [r])%list (up_names acc) (up_index acc)
                            (up_values acc) (up_default acc) (up_cond acc))
          else GOk acc
      end.

    Definition default_id : vtoken := TokId "Default".

    (** the default arm, gen_code.rs:593-619 *)
    Definition union_default (o : option decl) (acc : union_parts) : gres union_parts :=
      match o with
      | None => GOk acc
      | Some d =>
          t <~ type_token d;;
          let cond := match up_cond acc with Some c => [c] | None => [] end in
          let tys := match t with Some (ty, _) => [ty] | None => [] end in
          let args := if union_impl_union cfg then (cond ++ tys)%list else tys in
          let count := (length tys + if union_impl_union cfg then 1 else 0)%nat in
          GOk (UnionParts (up_specs acc ++ [Variant ANone default_id args])%list
                          (up_names acc) (up_index acc) (up_values acc)
                          (Some (default_id, count)) (up_cond acc))
      end.

    Definition convert_union_token (name : string) (body : ubody) : gres union_item :=
      match body with
      | UBody cond specs dflt =>
          name_ident <~ upper_camel_case_ident name;;
          cond <~ match cond with DVariable t _ => GOk t | _ => GErr GNotSupported end;;
          parts <~
            match cond with
            | TsInt _ | TsIdent _ =>
                values <~ gmap (fun s => match s with CaseSpec vs d =>
                                  gmap (fun v => z <~ resolve_value n KU32 v;; GOk (z, d, v)) vs end) specs;;
                union_values cond 0 (sort_by (fun p => fst (fst p)) (concat values)) no_parts
            | TsBool =>
                p <~ bool_case cond false specs no_parts;;
                p <~ bool_case cond true specs p;;
                GOk (UnionParts (up_specs p) (up_names p) (up_index p) (up_values p)
                                (up_default p) (Some YBool))
            | _ => GErr GNotSupported
            end;;
          parts <~ union_default dflt parts;;
          let has_default := match dflt with Some _ => true | None => false end in
          let other := if has_default then Some default_id else None in
          let indexer :=
            if union_impl_indexer cfg
            then Some (IndexerImpl (up_names parts) other (up_index parts) has_default) else None in
          let union :=
            if union_impl_union cfg
            then Some (UnionImpl (up_cond parts) (up_values parts)
                         (match cond with TsBool => None | _ => Some other end)) else None in
          match up_default parts with
          | None => GPanic                                  (* default_value.unwrap(), 681 *)
          | Some dv =>
              GOk (UnionItem name_ident
                     (if union_impl_indexer cfg then DvIndexer
                      else if union_impl_union cfg then DvUnion else DvSerde)
                     (up_specs parts) dv indexer union)
          end
      end.

    (** ** types_token, gen_code.rs:203-235 *)
    Definition type_token_of (t : string * typedef) : gres (list type_item) :=
      let '(name, def) := t in
      match def with
      | TdDecl d =>
          if remove_typedef cfg then GOk []
          else
            o <~ type_token d;;
            '(ty, opaque) <~ required o;;
            match opaque with
            | OpNone => x <~ upper_camel_case_ident name;; GOk [IAlias x ty]
            | _ => GErr GNotSupported
            end
      | TdEnum _ l => e <~ convert_enum_token name l;; GOk [IEnum e]
      | TdStruct _ l => s <~ convert_struct_token name l;; GOk [IStruct s]
      | TdUnion _ u => u <~ convert_union_token name u;; GOk [IUnion u]
      end.
    Definition types_token : gres (list type_item) :=
      l <~ gmap type_token_of (typedefs cx);; GOk (concat l).
  End WithBound.
End WithContext.

(** gen_code, gen_code.rs:113-150 *)
Definition gen_code (n : nat) (cfg : config) (ds : list definition) : gres file :=
  let '(cs, ts) := setup_context ds in
  let cx := Context cfg cs ts in
  consts <~ constants_token cx;;
  types <~ types_token cx n;;
  let tuple := enum_impl_indexer cfg || union_impl_indexer cfg || union_impl_union cfg in
  let indexer := enum_impl_indexer cfg || union_impl_indexer cfg in
  GOk (File ((if tuple then [UseSerializeTuple] else []) ++
             (if indexer then [UseIndexer] else []) ++
             (if union_impl_union cfg then [UseUnion] else []))%list
            consts types).

(** the command line tool, main.rs:36-51, from the text of the protocol file *)
Definition rpcgen (n : nat) (f : flags) (checks : bool) (source : text) : gres file :=
  decls <~ parse n source;;
  gen_code n (main_config f checks) decls.
