(** What the emitted file means: which Rust types its items are, in the sense
    of RustTypes.v.  This models the Rust compiler and serde's derive macro as
    far as the items of RustAst.v go, and the templates of
    rpcgen/src/gen_code.rs that RustAst.v leaves out.

    [file_env] gives the types when the items are well typed; [compiles]
    collects the conditions on names and sizes.  Both are meant to be
    sufficient: a file for which they fail is one about which nothing is
    claimed. *)
From Verif Require Import Base RustTypes SpecCase RustAst SpecXdl.
Local Open Scope string_scope.

Definition item_name (i : type_item) : string :=
  match i with
  | IAlias x _ => x | IEnum e => en_name e | IStruct s => st_name s | IUnion u => un_name u
  end.

Definition obind {A B} (o : option A) (f : A -> option B) : option B :=
  match o with Some a => f a | None => None end.
Fixpoint omap {A B} (f : A -> option B) (l : list A) : option (list B) :=
  match l with
  | [] => Some []
  | a :: l => obind (f a) (fun b => obind (omap f l) (fun bs => Some (b :: bs)))
  end.
Definition guard (b : bool) {A} (o : option A) : option A := if b then o else None.

(** position of a name in a list *)
Fixpoint position (x : string) (l : list string) : option nat :=
  match l with
  | [] => None
  | y :: l => if String.eqb x y then Some O else option_map S (position x l)
  end.

Fixpoint rty_eqb (a b : rty) : bool :=
  match a, b with
  | YInt s w, YInt s' w' => Bool.eqb s s' && (bits w =? bits w')%Z
  | YF32, YF32 | YF64, YF64 | YBool, YBool | YString, YString
  | YVecVarArray, YVecVarArray | YVarArray, YVarArray => true
  | YName x, YName y => String.eqb x y
  | YArray a l c, YArray b l' c' =>
      rty_eqb a b && Bool.eqb c c' &&
      match l, l' with
      | TokNum z, TokNum z' => (z =? z')%Z
      | TokId x, TokId y => String.eqb x y
      | _, _ => false
      end
  | YVec a, YVec b | YOption a, YOption b | YBox a, YBox b => rty_eqb a b
  | _, _ => false
  end.

Definition nonempty_list {A} (l : list A) : bool := match l with [] => false | _ => true end.

Definition token_id (t : vtoken) : option string :=
  match t with TokId x => Some x | TokNum _ => None end.

Section File.
  Variable f : file.

  (** the value of a constant, and whether it is a u64; a constant that is
      defined by another one must have its type.  [n] bounds the chain. *)
  Fixpoint const_sem (n : nat) (x : string) : option (bool * Z) :=
    match n with
    | O => None
    | S n =>
        match find (fun c => String.eqb (co_name c) x) (fi_consts f) with
        | Some c =>
            match co_value c with
            | TokNum z => Some (co_wide c, z)
            | TokId y =>
                match const_sem n y with
                | Some (w, z) => if Bool.eqb w (co_wide c) then Some (w, z) else None
                | None => None
                end
            end
        | None => None
        end
    end.
  Definition const_of_name (x : string) : option (bool * Z) :=
    const_sem (S (length (fi_consts f))) x.

  (** lengths of arrays: literals are usize; constants (u32/u64) need the cast.
      Serialize, Deserialize and Default exist for at most 32 elements. *)
  Definition array_len (len : vtoken) (cast : bool) : option nat :=
    obind match len with
          | TokNum z => Some z
          | TokId x => guard cast (option_map snd (const_of_name x))
          end
          (fun z => guard ((0 <=? z) && (z <=? 32))%Z (Some (Z.to_nat z))).

  Definition find_item (x : string) : option type_item :=
    find (fun i => String.eqb (item_name i) x) (fi_types f).
  Definition find_enum (x : string) : option enum_item :=
    match find_item x with Some (IEnum e) => Some e | _ => None end.

  (** a type without attribute *)
  Fixpoint ty_sem (t : rty) : option ty :=
    match t with
    | YInt s w => Some (TInt s w)
    | YF32 => Some TF32
    | YF64 => Some TF64
    | YBool => Some TBool
    | YString => Some TStr
    | YName x => match find_item x with Some _ => Some (TRef x) | None => None end
    | YArray t len cast =>
        obind (ty_sem t) (fun t => obind (array_len len cast) (fun n => Some (TArray n t)))
    | YVec t => option_map TSeq (ty_sem t)
    | YVecVarArray => Some (TSeq TVariableArray)
    | YOption t => option_map TOption (ty_sem t)
    | YBox t => option_map TBox (ty_sem t)
    | YVarArray => Some TVariableArray
    end.

  Definition enum_names (e : enum_item) : list string := map fst (en_values e).

  (** as_ref must cover all variants; try_from ends with
      [_ => Err(Convert)] (gen_code.rs:300-319) *)
  Definition signed_sem (e : enum_item) : option ty :=
    match en_as_ref e, en_try_from e with
    | Some asr, Some tf =>
        obind (omap (fun x => assoc String.eqb x asr) (enum_names e)) (fun zs =>
        obind (omap (fun p => option_map (pair (fst p)) (position (snd p) (enum_names e))) tf) (fun arms =>
        guard (nonempty_list tf) (Some (TSigned32 zs arms DErr))))
    | _, _ => None
    end.

  (** a field, or the field of a newtype variant, with its attribute *)
  Definition field_sem (a : attr) (t : rty) : option ty :=
    match a, t with
    | ANone, _ => ty_sem t
    | AFixed, YArray (YInt false W8) len cast => option_map TOpaqueFixed (array_len len cast)
    | AVariable, YVec (YInt false W8) => Some TOpaqueVar
    | ASigned32, YName x => obind (find_enum x) signed_sem
    | _, _ => None
    end.

  (** XdrIndexer for an enum with variants [vs]: in the patterns of index() a
      variant with parentheses has one field and one without has none; all
      variants are covered *)
  Definition indexer_sem (vs : list (string * list ty)) (ix : indexer_impl) : option ty :=
    obind (omap (fun p => option_map (pair (fst p)) (token_id (snd p))) (ix_names ix)) (fun names =>
    obind (omap (fun p => match p with (v, paren, z) =>
             obind (token_id v) (fun x =>
             obind (assoc String.eqb x vs) (fun ts =>
             guard (Nat.eqb (length ts) (if paren : bool then 1 else 0)) (Some (x, z)))) end)
             (ix_index ix)) (fun index =>
    obind match ix_other ix with
          | Some v => option_map DVal (token_id v)
          | None => Some DErr
          end (fun other =>
    guard (nonempty_list names && nonempty_list index &&
           (ix_unimplemented ix ||
            forallb (fun p => match assoc String.eqb (fst p) index with Some _ => true | None => false end) vs))
      (Some (TIndexer vs index names other))))).

  (** XdrUnion: every variant begins with the discriminant (derive lib.rs:148) *)
  Definition pat_sem (disc : rty) (p : pat) : option rval :=
    match p, disc with
    | PtBool b, YBool => Some (RBool b)
    | PtNum z, YInt false W32 => Some (RInt z)
    | PtPath t x, YName u =>
        guard (String.eqb t u)
          (obind (find_enum t) (fun e => option_map (fun i => RVariant i []) (position x (enum_names e))))
    | _, _ => None
    end.

  Definition union_variant_sem (disc : rty) (v : variant) : option (string * option (list ty)) :=
    obind (token_id (va_name v)) (fun x =>
    match va_attr v, va_tys v with
    | ANone, t :: ts => guard (rty_eqb t disc) (option_map (fun ts => (x, Some ts)) (omap ty_sem ts))
    | _, _ => None
    end).

  Definition is_pt (b : bool) (p : pat * vtoken) : bool :=
    match fst p with PtBool c => Bool.eqb b c | _ => false end.

  Definition union_impl_sem (vs : list variant) (ui : union_impl) : option ty :=
    obind (ui_disc ui) (fun disc =>
    obind (ty_sem disc) (fun dt =>
    obind (omap (union_variant_sem disc) vs) (fun variants =>
    obind (omap (fun p => obind (pat_sem disc (fst p)) (fun v =>
                          option_map (pair v) (token_id (snd p)))) (ui_names ui)) (fun names =>
    obind match ui_other ui with
          | Some (Some v) => option_map DVal (token_id v)
          | Some None => Some DErr
          | None => guard (existsb (is_pt true) (ui_names ui) && existsb (is_pt false) (ui_names ui))
                          (Some DErr)
          end (fun other =>
    guard (nonempty_list names) (Some (TUnion variants dt names other))))))).

  Definition serde_variant_sem (v : variant) : option (string * vshape) :=
    obind (token_id (va_name v)) (fun x =>
    match va_tys v with
    | [] => match va_attr v with ANone => Some (x, VUnit) | _ => None end
    | [t] => option_map (fun t => (x, VNewtype t)) (field_sem (va_attr v) t)
    | _ => None
    end).
  Definition indexer_variant_sem (v : variant) : option (string * list ty) :=
    obind (token_id (va_name v)) (fun x =>
    match va_attr v with
    | ANone => option_map (pair x) (omap ty_sem (va_tys v))
    | _ => None
    end).

  (** the variant named by [impl Default] exists and has that many fields *)
  Definition default_fits (d : vtoken * nat) (vs : list variant) : bool :=
    existsb (fun v => match va_name v, fst d with
                      | TokId x, TokId y => String.eqb x y && Nat.eqb (length (va_tys v)) (snd d)
                      | _, _ => false
                      end) vs.

  Definition enum_sem (e : enum_item) : option ty :=
    guard (existsb (String.eqb (en_default e)) (enum_names e))
    match en_derive e, en_indexer e, en_as_ref e with
    | DvSerde, None, None => Some (TEnum (map (fun x => (x, VUnit)) (enum_names e)))
    | DvSerde, None, Some _ =>
        obind (signed_sem e) (fun _ => Some (TEnum (map (fun x => (x, VUnit)) (enum_names e))))
    | DvIndexer, Some ix, None => indexer_sem (map (fun x => (x, [])) (enum_names e)) ix
    | _, _, _ => None
    end.

  Definition rident_name (i : rident) : string := match i with Id x | RawId x => x end.
  Definition struct_sem (s : struct_item) : option ty :=
    option_map TStruct
      (omap (fun fd => option_map (pair (rident_name (fd_name fd))) (field_sem (fd_attr fd) (fd_ty fd)))
            (st_fields s)).

  Definition union_sem (u : union_item) : option ty :=
    guard (default_fits (un_default u) (un_variants u))
    match un_derive u, un_indexer u, un_union u with
    | DvSerde, None, None => option_map TEnum (omap serde_variant_sem (un_variants u))
    | DvIndexer, Some ix, None =>
        obind (omap indexer_variant_sem (un_variants u)) (fun vs => indexer_sem vs ix)
    | DvUnion, None, Some ui => union_impl_sem (un_variants u) ui
    | _, _, _ => None
    end.

  Definition item_sem (i : type_item) : option ty :=
    match i with
    | IAlias _ t => ty_sem t
    | IEnum e => enum_sem e
    | IStruct s => struct_sem s
    | IUnion u => union_sem u
    end.

  Definition file_env : option env :=
    omap (fun i => option_map (pair (item_name i)) (item_sem i)) (fi_types f).

  (** ** Names and sizes *)
  Definition bare_ok (x : string) : Prop := ~ In x rust_words /\ x <> "_".
  Definition rident_ok (i : rident) : Prop :=
    match i with
    | Id x => bare_ok x
    | RawId x => ~ In x ["self"; "Self"; "super"; "crate"; "_"]
    end.
  Definition variant_ok (x : string) : Prop := bare_ok x /\ x <> "Error".
  Definition variant_names (vs : list variant) : list string :=
    flat_map (fun v => match va_name v with TokId x => [x] | TokNum _ => [] end) vs.

  Definition item_compiles (i : type_item) : Prop :=
    match i with
    | IAlias _ _ => True
    | IEnum e => NoDup (enum_names e) /\ Forall variant_ok (enum_names e) /\
                 NoDup (map snd (en_values e)) /\
                 Forall (fun z => - 2 ^ 31 <= z < 2 ^ 31) (map snd (en_values e))
    | IStruct s => NoDup (map (fun fd => rident_name (fd_name fd)) (st_fields s)) /\
                   Forall (fun fd => rident_ok (fd_name fd)) (st_fields s)
    | IUnion u => NoDup (variant_names (un_variants u)) /\
                  Forall variant_ok (variant_names (un_variants u))
    end.

  (** the items stored inside a value of a type *)
  Fixpoint inline (t : rty) : list string :=
    match t with
    | YName x => [x]
    | YArray t _ _ | YOption t => inline t
    | _ => []
    end.
  Definition item_inline (i : type_item) : list string :=
    match i with
    | IAlias _ t => inline t
    | IEnum _ => []
    | IStruct s => flat_map (fun fd => inline (fd_ty fd)) (st_fields s)
    | IUnion u => flat_map (fun v => flat_map inline (va_tys v)) (un_variants u)
    end.

  Definition const_compiles (c : const_item) : Prop :=
    const_name_ok (co_name c) /\ exists w z, const_of_name (co_name c) = Some (w, z).

  Definition compiles : Prop :=
    NoDup (map item_name (fi_types f)) /\
    Forall (fun i => ~ In (item_name i) rust_words /\ ~ In (item_name i) taken) (fi_types f) /\
    Forall item_compiles (fi_types f) /\
    (exists rank : string -> nat, forall i y, In i (fi_types f) -> In y (item_inline i) ->
       (rank y < rank (item_name i))%nat) /\
    NoDup (map co_name (fi_consts f)) /\
    Forall const_compiles (fi_consts f).
End File.
