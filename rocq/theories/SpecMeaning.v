(** What a Rust file with type definitions means for serde: the types
    (RustTypes.v) that its items define, from their syntax (SpecRust.v) alone.
    It knows nothing of rpcgen.  A file outside of the part that is described
    here has no meaning ([None]).

    From the Rust reference and the documentation of serde and serde_xdr: the
    derive macros Serialize, Deserialize, XdrIndexer and XdrUnion, the [with]
    attribute, constants in array lengths, and functions whose body is a match
    on their parameter. *)
From Verif Require Import Base RustTypes SpecRust.
Local Open Scope string_scope.
Local Open Scope list_scope.

Fixpoint collect {A B} (f : A -> option B) (l : list A) : option (list B) :=
  match l with
  | [] => Some []
  | a :: l => let? b := f a in let? bs := collect f l in Some (b :: bs)
  end.
Fixpoint place (x : string) (l : list string) : option nat :=
  match l with
  | [] => None
  | y :: l => if String.eqb x y then Some O else option_map S (place x l)
  end.
Definition has (x : string) (l : list string) : bool := existsb (String.eqb x) l.

(** [x], [a::b] *)
Definition one_name (p : path) : option string :=
  match p with Path false [x] => Some x | _ => None end.
Definition two_names (p : path) : option (string * string) :=
  match p with Path false [x; y] => Some (x, y) | _ => None end.
(** a type that is a single name *)
Definition type_name (t : stype) : option string :=
  match t with SyPath p [] => one_name p | _ => None end.
Definition is_type (x : string) (t : stype) : bool :=
  match type_name t with Some y => String.eqb x y | None => false end.

(** types of the language and of the prelude without arguments *)
Definition builtins : list (string * ty) :=
  [("bool", TBool); ("f32", TF32); ("f64", TF64); ("String", TStr);
   ("i8", TInt true W8); ("i16", TInt true W16); ("i32", TInt true W32); ("i64", TInt true W64); ("i128", TInt true W128);
   ("u8", TInt false W8); ("u16", TInt false W16); ("u32", TInt false W32); ("u64", TInt false W64); ("u128", TInt false W128)].

(** [3i32], [-3i32] *)
Definition i32_value (e : sexpr) : option Z :=
  match e with
  | SeInt z s => if String.eqb s "i32" then Some z else None
  | SeNeg (SeInt z s) => if String.eqb s "i32" then Some (- z)%Z else None
  | _ => None
  end.

(** ** Functions that are tables *)
(** the arms of a match up to the first [_], and the body of that arm *)
Fixpoint arms {K V} (key : spat -> option K) (val : sexpr -> option V) (l : list (spat * sexpr))
    : option (list (K * V) * option sexpr) :=
  match l with
  | [] => Some ([], None)
  | (SpWild, e) :: _ => Some ([], Some e)
  | (p, e) :: l =>
      let? k := key p in let? v := val e in let? (r, d) := arms key val l in Some ((k, v) :: r, d)
  end.

(** the result of an arm: [Ok(a)] where [val] reads [a], [Err(..)], a panic *)
Definition result {A} (val : sexpr -> option A) (e : sexpr) : option (dflt A) :=
  match e with
  | SeCall p [a] =>
      let? x := one_name p in
      if String.eqb x "Ok" then option_map DVal (val a)
      else if String.eqb x "Err" then match a with SePath _ => Some DErr | _ => None end
      else None
  | SeMacro x [] => if String.eqb x "unimplemented" then Some DPanic else None
  | _ => None
  end.
Definition ok_of {A} (val : sexpr -> option A) (e : sexpr) : option A :=
  match result val e with Some (DVal a) => Some a | _ => None end.
(** [stringify!(x)] *)
Definition stringified (e : sexpr) : option string :=
  match e with
  | SeMacro m [Leaf (LWord x)] => if String.eqb m "stringify" then Some x else None
  | _ => None
  end.

Definition int_key (p : spat) : option Z :=
  match p with SpInt z s => if String.eqb s "i32" then Some z else None | _ => None end.

(** the function [x] of an impl, if its body is a match on its only parameter *)
Definition method (x : string) (ms : list member) : option (param * list (spat * sexpr)) :=
  match find (fun m => match m with MbFn y _ _ _ => String.eqb x y | _ => false end) ms with
  | Some (MbFn _ [q] _ (SeMatch (SePath p) l)) =>
      let? y := one_name p in
      if String.eqb y (match q with PaSelf => "self" | PaTyped z _ => z end) then Some (q, l) else None
  | _ => None
  end.
Definition by_self (x : string) (ms : list member) : option (list (spat * sexpr)) :=
  match method x ms with Some (PaSelf, l) => Some l | _ => None end.
Definition by_i32 (x : string) (ms : list member) : option (list (spat * sexpr)) :=
  match method x ms with Some (PaTyped _ t, l) => if is_type "i32" t then Some l else None | _ => None end.

(** ** Items *)
Section Items.
  Variable items : list sitem.

  Definition defines (i : sitem) : option string :=
    match i with SiType _ x _ | SiEnum _ _ x _ | SiStruct _ _ x _ => Some x | _ => None end.
  Definition definition_of (x : string) : option sitem :=
    find (fun i => match defines i with Some y => String.eqb x y | None => false end) items.

  Definition imported (from : list string) (x : string) : bool :=
    existsb (fun i => match i with SiUse p xs => list_eqb String.eqb p from && has x xs | _ => false end) items.

  (** the impl of a trait without arguments for the type [x] *)
  Definition impl_of (tr : stype -> bool) (x : string) : option (stype * list member) :=
    match find (fun i => match i with SiImpl t s _ => tr t && is_type x s | _ => false end) items with
    | Some (SiImpl t _ ms) => Some (t, ms)
    | _ => None
    end.
  (** [tr<arg>] *)
  Definition applied (tr : string) (t : stype) : option stype :=
    match t with
    | SyPath p [a] => match one_name p with Some y => if String.eqb y tr then Some a else None | None => None end
    | _ => None
    end.
  Definition is_applied (tr arg : string) (t : stype) : bool :=
    match applied tr t with Some a => is_type arg a | None => false end.

  (** ** Constants: type and value; [n] bounds the nesting *)
  Definition constant (x : string) : option (stype * sexpr) :=
    match find (fun i => match i with SiConst _ y _ _ => String.eqb x y | _ => false end) items with
    | Some (SiConst _ _ t e) => Some (t, e)
    | _ => None
    end.
  Fixpoint value (n : nat) (e : sexpr) : option (string * Z) :=
    match n with
    | O => None
    | S n =>
        match e with
        | SeInt z s => Some (s, z)
        | SeNeg e => let? (s, z) := value n e in Some (s, - z)%Z
        | SePath p =>
            let? x := one_name p in
            let? (t, e) := constant x in
            let? (s, z) := value n e in
            if is_type s t then Some (s, z) else None
        | SeCast e t =>
            let? (s, z) := value n e in
            if is_type "usize" t then Some ("usize", (z mod 2 ^ 64)%Z) else None
        | _ => None
        end
    end.
  (** serde has impls for arrays of up to 32 elements *)
  Definition length_of (e : sexpr) : option nat :=
    let? (s, z) := value (length items + 3) e in
    if String.eqb s "usize" && ((0 <=? z) && (z <=? 32))%Z then Some (Z.to_nat z) else None.

  (** ** Types.  A definition hides a type of the language or of the prelude. *)
  Fixpoint type_meaning (t : stype) : option ty :=
    match t with
    | SyPath p [] =>
        match p with
        | Path false [x] =>
            match definition_of x with Some _ => Some (TRef x) | None => assoc String.eqb x builtins end
        | Path false [a; b; c] =>
            if String.eqb a "serde_xdr" && String.eqb b "opaque" && String.eqb c "VariableArray"
            then Some TVariableArray else None
        | _ => None
        end
    | SyPath p [t] =>
        let? x := one_name p in
        match definition_of x with
        | Some _ => None
        | None =>
            let? t := type_meaning t in
            if String.eqb x "Vec" then Some (TSeq t)
            else if String.eqb x "Option" then Some (TOption t)
            else if String.eqb x "Box" then Some (TBox t)
            else None
        end
    | SyArray t e => let? t := type_meaning t in let? n := length_of e in Some (TArray n t)
    | _ => None
    end.

  (** ** Enums without fields *)
  Definition unit_names (vs : list svariant) : option (list string) :=
    collect (fun v => match sv_fields v with None => Some (sv_name v) | Some _ => None end) vs.
  (** the names of the variants of the enum [x] *)
  Definition enum_variants (x : string) : option (list string) :=
    match definition_of x with Some (SiEnum _ _ _ vs) => unit_names vs | _ => None end.
  Definition variant_key (x : string) (p : spat) : option string :=
    match p with
    | SpPath q => let? (y, v) := two_names q in if String.eqb x y then Some v else None
    | _ => None
    end.

  (** [x::v] as the place of the variant *)
  Definition variant_index (x : string) (names : list string) (e : sexpr) : option nat :=
    match e with
    | SePath q => let? (y, v) := two_names q in if String.eqb x y then place v names else None
    | _ => None
    end.

  (** [with = "serde_xdr::primitive::signed32"]: AsRef<i32> and TryFrom<i32> *)
  Definition signed32 (x : string) : option ty :=
    let? names := enum_variants x in
    let? (_, ms) := impl_of (is_applied "AsRef" "i32") x in
    let? l := by_self "as_ref" ms in
    let? (table, other) := arms (variant_key x) (fun e => match e with SeRef e => i32_value e | _ => None end) l in
    let? zs := match other with
               | None => collect (fun n => assoc String.eqb n table) names
               | Some _ => None
               end in
    let? (_, ms) := impl_of (is_applied "TryFrom" "i32") x in
    let? l := by_i32 "try_from" ms in
    let? (table, other) := arms int_key (ok_of (variant_index x names)) l in
    let? d := match other with Some e => result (variant_index x names) e | None => None end in
    Some (TSigned32 zs table d).

  Definition is_u8 (t : stype) : bool :=
    match type_meaning t with Some (TInt false W8) => true | _ => false end.
  (** a field with its attributes *)
  Definition field_meaning (attrs : list sattr) (t : stype) : option ty :=
    match attrs with
    | [] => type_meaning t
    | [Attr a [MeValue k s]] =>
        if String.eqb a "serde" && String.eqb k "with" then
          if String.eqb s "serde_xdr::opaque::fixed" then
            match t with
            | SyArray t e => if is_u8 t then option_map TOpaqueFixed (length_of e) else None
            | _ => None
            end
          else if String.eqb s "serde_xdr::opaque::variable" then
            match type_meaning t with Some (TSeq (TInt false W8)) => Some TOpaqueVar | _ => None end
          else if String.eqb s "serde_xdr::primitive::signed32" then
            let? x := type_name t in signed32 x
          else None
        else None
    | _ => None
    end.

  (** ** Derived impls *)
  Definition derived (attrs : list sattr) : list string :=
    flat_map (fun a => if String.eqb (sa_name a) "derive"
                       then flat_map (fun m => match m with MeWord x => [x] | _ => [] end) (sa_args a) else []) attrs.
  Definition serde_in_scope : bool := imported ["serde"] "Serialize" && imported ["serde"] "Deserialize".
  Definition derives_serde (attrs : list sattr) : bool :=
    has "Serialize" (derived attrs) && has "Deserialize" (derived attrs) && serde_in_scope.
  (** the macro, the trait of the same name and the trait SerializeTuple *)
  Definition derives_xdr (x : string) (attrs : list sattr) : bool :=
    has x (derived attrs) && imported ["serde_xdr_derive"] x && imported ["serde_xdr"] x &&
    imported ["serde"; "ser"] "SerializeTuple".

  Definition variant_meaning (v : svariant) : option (string * vshape) :=
    match sv_fields v with
    | None => match sv_attrs v with [] => Some (sv_name v, VUnit) | _ => None end
    | Some [t] => let? t := field_meaning (sv_attrs v) t in Some (sv_name v, VNewtype t)
    | Some ts =>
        match sv_attrs v with
        | [] => let? ts := collect type_meaning ts in Some (sv_name v, VTuple ts)
        | _ => None
        end
    end.

  (** *** XdrIndexer *)
  Definition plain_variant (v : svariant) : option (string * list ty) :=
    match sv_attrs v with
    | [] => let? ts := collect type_meaning (match sv_fields v with Some ts => ts | None => [] end) in Some (sv_name v, ts)
    | _ => None
    end.
  (** a pattern of [index] has the number of fields of its variant *)
  Definition pattern_key (x : string) (vs : list (string * list ty)) (p : spat) : option string :=
    let? (q, k) := match p with
                   | SpPath q => Some (q, O)
                   | SpTuple q ps =>
                       if forallb (fun p => match p with SpWild => true | _ => false end) ps then Some (q, length ps) else None
                   | _ => None
                   end in
    let? (y, v) := two_names q in
    let? ts := assoc String.eqb v vs in
    if String.eqb x y && Nat.eqb (length ts) k then Some v else None.
  Definition indexer (x : string) (vs : list svariant) : option ty :=
    let? vs := collect plain_variant vs in
    let? (_, ms) := impl_of (is_type "XdrIndexer") x in
    let? l := by_self "index" ms in
    let? (index, other) := arms (pattern_key x vs) i32_value l in
    let? _ := match other with
              | Some e => match result stringified e with Some DPanic => Some tt | _ => None end
              | None => if forallb (fun v => has (fst v) (map fst index)) vs then Some tt else None
              end in
    let? l := by_i32 "name_by_index" ms in
    let? (names, other) := arms int_key (ok_of stringified) l in
    let? d := match other with Some e => result stringified e | None => None end in
    Some (TIndexer vs index names d).

  (** *** XdrUnion: the first field of a variant is the discriminant *)
  Definition union_variant (disc : string) (v : svariant) : option (string * option (list ty)) :=
    match sv_attrs v, sv_fields v with
    | [], None => Some (sv_name v, None)
    | [], Some (t :: ts) =>
        if is_type disc t then let? ts := collect type_meaning ts in Some (sv_name v, Some ts) else None
    | _, _ => None
    end.
  (** a pattern for values of the type [dt] *)
  Definition value_key (dt : ty) (p : spat) : option rval :=
    match p, dt with
    | SpBool b, TBool => Some (RBool b)
    | SpInt z s, TInt false W32 => if String.eqb s "u32" then Some (RInt z) else None
    | SpPath q, TRef x =>
        let? (y, v) := two_names q in
        if String.eqb x y then
          let? names := enum_variants y in let? i := place v names in Some (RVariant i [])
        else None
    | _, _ => None
    end.
  Definition has_bool (b : bool) (table : list (rval * string)) : bool :=
    existsb (fun p => match fst p with RBool c => Bool.eqb b c | _ => false end) table.
  Definition union (x : string) (vs : list svariant) : option ty :=
    let? (tr, ms) := impl_of (fun t => match applied "XdrUnion" t with Some _ => true | None => false end) x in
    let? disc := match applied "XdrUnion" tr with Some t => type_name t | None => None end in
    let? dt := type_meaning (SyPath (Path false [disc]) []) in
    let? vs := collect (union_variant disc) vs in
    let? l := match method "name_by_value" ms with
              | Some (PaTyped _ (SyRef _ t), l) => if is_type disc t then Some l else None
              | _ => None
              end in
    let? (names, other) := arms (value_key dt) (ok_of stringified) l in
    let? d := match other with
              | Some e => result stringified e
              | None => if has_bool true names && has_bool false names then Some DErr else None
              end in
    Some (TUnion vs dt names d).

  (** ** The types that a file defines *)
  Definition item_meaning (i : sitem) : option (list (string * ty)) :=
    match i with
    | SiType _ x t => let? t := type_meaning t in Some [(x, t)]
    | SiStruct attrs _ x fs =>
        if derives_serde attrs then
          let? ts := collect (fun f => let? t := field_meaning (sf_attrs f) (sf_type f) in Some (sf_name f, t)) fs in
          Some [(x, TStruct ts)]
        else None
    | SiEnum attrs _ x vs =>
        if derives_serde attrs then let? vs := collect variant_meaning vs in Some [(x, TEnum vs)]
        else if derives_xdr "XdrIndexer" attrs then let? t := indexer x vs in Some [(x, t)]
        else if derives_xdr "XdrUnion" attrs then let? t := union x vs in Some [(x, t)]
        else None
    | _ => Some []
    end.
  Definition meaning : option env := let? l := collect item_meaning items in Some (concat l).
End Items.
