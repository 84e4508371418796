(** Model of the derive macros, serde-xdr-derive/src/lib.rs: the code they
    expand to, and what this code does. *)
From Verif Require Import Base SerModel RustTypes DeModel.

(** syn::Fields, of the variants of a syn::ItemEnum *)
Inductive fields := FNamed (l : list (string * ty)) | FUnnamed (l : list ty) | FUnit.
(** what a derive attribute can stand on; lib.rs:7, 118: [parse(input).unwrap()] *)
Inductive item := ItemEnum (vs : list (string * fields)) | ItemStruct | ItemUnion.

(** [format_ident!("a{}", i)], [format_ident!("r{}", i)] and [value];
    lib.rs:26-27, 139-140, 149 *)
Inductive ident := Arg (i : nat) | Ret (i : nat) | Value.
Definition ident_eqb (x y : ident) : bool :=
  match x, y with
  | Arg i, Arg j | Ret i, Ret j => Nat.eqb i j
  | Value, Value => true
  | _, _ => false
  end.

(** [E::V(binds) => { ser.serialize_element(elems)?; }]; lib.rs:39-43, 164-168 *)
Record ser_arm := SerArm { sa_variant : string; sa_binds : list ident; sa_elems : list ident }.
(** [stringify!(V) => { let x = seq.next_element::<T>()?.unwrap(); Ok(E::V(rets)) }];
    lib.rs:45-50, 170-175 *)
Record de_arm := DeArm { da_variant : string; da_lets : list (ident * ty); da_rets : list ident }.

(** ** xdr_indexer, lib.rs:5-114 *)
(** lib.rs:25-37; [i] is the loop counter *)
Fixpoint indexer_fields (i : nat) (ts : list ty) : list ident * list (ident * ty) * list ident :=
  match ts with
  | [] => ([], [], [])
  | t :: ts =>
      let '(args, lets, rets) := indexer_fields (S i) ts in
      (Arg i :: args, (Ret i, t) :: lets, Ret i :: rets)
  end.

(** lib.rs:13-58; [None] is a panic of the macro *)
Fixpoint indexer_arms (vs : list (string * fields)) : option (list ser_arm * list de_arm) :=
  match vs with
  | [] => Some ([], [])
  | (x, fs) :: vs =>
      match fs with
      | FNamed _ => None                                    (* unimplemented!(), lib.rs:16-18 *)
      | FUnnamed ts =>
          let '(args, lets, rets) := indexer_fields 0 ts in
          option_map (fun '(sa, da) => (SerArm x args args :: sa, DeArm x lets rets :: da))
            (indexer_arms vs)
      | FUnit =>
          option_map (fun '(sa, da) => (SerArm x [] [] :: sa, DeArm x [] [] :: da)) (indexer_arms vs)
      end
  end.

Definition xdr_indexer (it : item) : option (list ser_arm * list de_arm) :=
  match it with ItemEnum vs => indexer_arms vs | _ => None end.

(** ** xdr_union, lib.rs:116-237 *)
(** lib.rs:137-162: the first field is returned as [value] *)
Fixpoint union_fields (i : nat) (first : bool) (value_ty : option ty) (ts : list ty)
  : list ident * list (ident * ty) * list ident * option ty :=
  match ts with
  | [] => ([], [], [], value_ty)
  | t :: ts =>
      let value_ty := match value_ty with None => Some t | some => some end in
      let '(args, lets, rets, value_ty) := union_fields (S i) false value_ty ts in
      if first then (Arg i :: args, lets, Value :: rets, value_ty)
      else (Arg i :: args, (Ret i, t) :: lets, Ret i :: rets, value_ty)
  end.

(** lib.rs:125-183 *)
Fixpoint union_arms (value_ty : option ty) (vs : list (string * fields))
  : option (list ser_arm * list de_arm * option ty) :=
  match vs with
  | [] => Some ([], [], value_ty)
  | (x, fs) :: vs =>
      match fs with
      | FNamed _ => None                                    (* lib.rs:128-130 *)
      | FUnnamed ts =>
          let '(args, lets, rets, value_ty) := union_fields 0 true value_ty ts in
          option_map (fun '(sa, da, ty) => (SerArm x args args :: sa, DeArm x lets rets :: da, ty))
            (union_arms value_ty vs)
      | FUnit =>
          option_map (fun '(sa, da, ty) => (SerArm x [] [] :: sa, DeArm x [] [] :: da, ty))
            (union_arms value_ty vs)
      end
  end.

(** lib.rs:185: [value_ty.unwrap()] *)
Definition xdr_union (it : item) : option (list ser_arm * list de_arm * ty) :=
  match it with
  | ItemEnum vs =>
      match union_arms None vs with
      | Some (sa, da, Some ty) => Some (sa, da, ty)
      | _ => None
      end
  | _ => None
  end.

(** ** What the expanded code does *)
Definition types (fs : fields) : list ty :=
  match fs with FNamed l => map snd l | FUnnamed l => l | FUnit => [] end.

Fixpoint elements {A} (f : ty -> rval -> res A) (bound : list (ident * (ty * rval))) (xs : list ident)
  : res (list A) :=
  match xs with
  | [] => Ok []
  | x :: xs =>
      match assoc ident_eqb x bound with
      | Some (t, v) => a <- f t v;; l <- elements f bound xs;; Ok (a :: l)
      | None => Stuck
      end
  end.

(** [match self { .. }], lib.rs:71-74, 194-197 *)
Definition run_ser (n : nat) (E : env) (sa : list ser_arm) (x : string) (ts : list ty) (fs : list rval)
  : res (list sval) :=
  match find (fun a => String.eqb (sa_variant a) x) sa with
  | Some a => elements (calls n E) (combine (sa_binds a) (combine ts fs)) (sa_elems a)
  | None => Ok [SPanic]                                     (* unimplemented!() *)
  end.

Fixpoint run_lets (n : nat) (E : env) (l : list (ident * ty)) (bound : list (ident * rval)) (s : seq)
  : res (list (ident * rval) * seq) :=
  match l with
  | [] => Ok (bound, s)
  | (x, t) :: l =>
      '(o, s) <- next_element (deser n E t) s;;
      match o with
      | None => Panic                                       (* unwrap() *)
      | Some v => run_lets n E l ((x, v) :: bound) s
      end
  end.
Fixpoint run_rets (bound : list (ident * rval)) (xs : list ident) : res (list rval) :=
  match xs with
  | [] => Ok []
  | x :: xs =>
      match assoc ident_eqb x bound with
      | Some v => l <- run_rets bound xs;; Ok (v :: l)
      | None => Stuck
      end
  end.

(** [match variant { .. }], lib.rs:101-104, 224-227 *)
Definition run_de (n : nat) (E : env) (vs : list (string * fields)) (da : list de_arm) (x : string)
    (bound : list (ident * rval)) (s : seq) : res (rval * st) :=
  match find (fun a => String.eqb (da_variant a) x) da, find_variant x vs 0 with
  | Some a, Some (k, _) =>
      '(bound, s) <- run_lets n E (da_lets a) bound s;;
      l <- run_rets bound (da_rets a);; Ok (RVariant k l, snd s)
  | _, _ => Panic                                           (* unimplemented!() *)
  end.

(** the methods of the user's impls are the arms of [index], [name_by_index]
    and [name_by_value] as in RustTypes.v *)
(** lib.rs:61-78 *)
Definition indexer_serialize (n : nat) (E : env) (vs : list (string * fields)) (sa : list ser_arm)
    (index : list (string * Z)) (i : nat) (fs : list rval) : res sval :=
  match nth_error vs i with
  | Some (x, f) =>
      match assoc String.eqb x index with
      | Some z => l <- run_ser n E sa x (types f) fs;; Ok (STuple (SI32 z :: l))
      | None => Ok SPanic
      end
  | None => Stuck
  end.
(** lib.rs:80-110 *)
Definition indexer_deserialize (n : nat) (E : env) (vs : list (string * fields)) (da : list de_arm)
    (names : list (Z * string)) (d : dflt string) (i : st) : res (rval * st) :=
  '(o, s) <- next_element read_i32 (10, i);;
  match o with
  | None => Panic
  | Some z =>
      match with_dflt (assoc Z.eqb z names) d with
      | DErr => Err (ECustom (MCannotConvert z))
      | DPanic => Panic
      | DVal x => run_de n E vs da x [] s
      end
  end.
(** lib.rs:187-201 *)
Definition union_serialize (n : nat) (E : env) (vs : list (string * fields)) (sa : list ser_arm)
    (i : nat) (fs : list rval) : res sval :=
  match nth_error vs i with
  | Some (x, f) => l <- run_ser n E sa x (types f) fs;; Ok (STuple l)
  | None => Stuck
  end.
(** lib.rs:203-233 *)
Definition union_deserialize (n : nat) (E : env) (vs : list (string * fields)) (da : list de_arm) (value_ty : ty)
    (names : list (rval * string)) (d : dflt string) (i : st) : res (rval * st) :=
  '(o, s) <- next_element (deser n E value_ty) (10, i);;
  match o with
  | None => Panic
  | Some v =>
      match with_dflt (assoc rval_eqb v names) d with
      | DErr => Err (ECustom MCannotConvertValue)
      | DPanic => Panic
      | DVal x => run_de n E vs da x [(Value, v)] s
      end
  end.
