(** The names that rpcgen looks up while it generates code: the functions of GenModel.v
    that call Context::resolve_name, returning also the number of its calls. *)
From Verif Require Import Base RustTypes Nom Keyword Ast ParserModel CaseModel RustAst GenModel.
Local Open Scope Z_scope.

(** [gmap] (the loops of gen_code.rs, left at the first error) with a count *)
Fixpoint l_gmap {A B} (f : A -> gres B * Z) (l : list A) : gres (list B) * Z :=
  match l with
  | [] => (GOk [], 0)
  | a :: l =>
      match f a with
      | (GOk b, m) => let '(bs, k) := l_gmap f l in (gbind bs (fun bs => GOk (b :: bs)), m + k)
      | (GErr e, m) => (GErr e, m)
      | (GPanic, m) => (GPanic, m)
      | (GFuel, m) => (GFuel, m)
      end
  end.

Section WithContext.
  Variables (cx : context) (n : nat).

  (** resolve_name, gen_code.rs:86-92, with resolve_const_value (55-69),
      resolve_enum_value (71-84) and resolve_value (94-103): one for each call *)
  Fixpoint l_resolve_name (n : nat) (k : intkind) (name : string) : gres Z * Z :=
    match n with
    | O => (GFuel, 1)
    | S n =>
        let l_resolve_value v :=
          match v with VConst c => (constant_value k c, 0) | VIdent i => l_resolve_name n k i end in
        let '(r, m) :=
          match assoc String.eqb name (constants cx) with
          | Some v => l_resolve_value v
          | None => (GErr (GNotFoundIdentifier name), 0)
          end in
        match r with
        | GErr _ =>
            let '(r, j) :=
              match find_member name (typedefs cx) with
              | Some v => l_resolve_value v
              | None => (GErr (GNotFoundIdentifier name), 0)
              end in
            (r, 1 + m + j)
        | r => (r, 1 + m)
        end
    end.
  Definition l_resolve_value (k : intkind) (v : value) : gres Z * Z :=
    match v with VConst c => (constant_value k c, 0) | VIdent i => l_resolve_name n k i end.

  (** convert_enum_token, gen_code.rs:237-242: the values of the members; nothing is looked
      up after that *)
  Definition l_enum (assigns : list assign) : gres (list Z) * Z :=
    l_gmap (fun a => l_resolve_value KI32 (as_value a)) assigns.

  (** convert_union_token, gen_code.rs:430-453: the values of the cases, once the name and
      the discriminant are found good; nothing is looked up after that *)
  Definition l_union (name : string) (body : ubody) : gres (list (list Z)) * Z :=
    match body with
    | UBody cond specs _ =>
        match upper_camel_case_ident name, cond with
        | GOk _, DVariable (TsInt _ | TsIdent _) _ =>
            l_gmap (fun s => match s with CaseSpec vs _ => l_gmap (l_resolve_value KU32) vs end) specs
        | _, _ => (GOk [], 0)
        end
    end.

  (** types_token, gen_code.rs:203-235 *)
  Definition l_type_token_of (t : string * typedef) : gres (list type_item) * Z :=
    (type_token_of cx n t,
     match snd t with
     | TdEnum _ l => snd (l_enum l)
     | TdUnion _ u => snd (l_union (fst t) u)
     | TdDecl _ | TdStruct _ _ => 0
     end).
  Definition l_types_token : gres (list (list type_item)) * Z := l_gmap l_type_token_of (typedefs cx).
End WithContext.

(** gen_code, gen_code.rs:113-150: the calls of resolve_name; the constants are written out
    without looking up their values *)
Definition lookups (n : nat) (cfg : config) (ds : list definition) : Z :=
  let '(cs, ts) := setup_context ds in
  let cx := Context cfg cs ts in
  match constants_token cx with
  | GOk _ => snd (l_types_token cx n)
  | _ => 0
  end.
