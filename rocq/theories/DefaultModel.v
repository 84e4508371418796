(** [T::default()] for the types of an emitted file: the [impl Default] of enums
    (gen_code.rs:364-368) and unions (gen_code.rs:592-613, 689-693, 857-861,
    866-876), [#[derive(Default)]] of structs (gen_code.rs:423) and of
    [serde_xdr::opaque::VariableArray] (opaque.rs:6), and the impls of the
    standard library: zero, false, the empty String and Vec, None, the boxed
    default and arrays of defaults. *)
From Verif Require Import Base RustTypes RustAst GenSem.
Local Open Scope string_scope.

(** A [u8; N] or Vec<u8> is represented by its bytes where it is
    (de)serialized by serde_xdr::opaque, see RustTypes.v. *)
Definition as_bytes (v : rval) : byte := match v with RInt z => bZ z | _ => x00 end.
Definition with_attr (a : attr) (v : rval) : rval :=
  match a, v with
  | (AFixed | AVariable), RSeq vs => RBytes (map as_bytes vs)
  | _, _ => v
  end.

(** the variant of that name, and its position *)
Fixpoint variant_named (x : vtoken) (i : nat) (vs : list variant) : option (nat * variant) :=
  match vs with
  | [] => None
  | v :: vs =>
      match va_name v, x with
      | TokId y, TokId z => if String.eqb y z then Some (i, v) else variant_named x (S i) vs
      | _, _ => variant_named x (S i) vs
      end
  end.

Section File.
  Variable f : file.

  (** The bound [n] is the depth of calls of [default]. *)
  Fixpoint default_of (n : nat) (t : rty) : res rval :=
    match n with
    | O => Fuel
    | S n =>
        match t with
        | YInt _ _ => Ok (RInt 0)
        | YF32 | YF64 => Ok (RFloat 0)
        | YBool => Ok (RBool false)
        | YString => Ok (RStr [])
        | YVec _ | YVecVarArray => Ok (RSeq [])
        | YOption _ => Ok RNone
        | YVarArray => Ok (RSeq [RBytes []])
        | YBox t => default_of n t
        | YArray t len cast =>
            match array_len f len cast with
            | Some k => vs <- mapM (default_of n) (repeat t k);; Ok (RSeq vs)
            | None => Stuck
            end
        | YName x =>
            match find_item f x with
            | Some (IAlias _ t) => default_of n t
            | Some (IEnum e) =>
                match position (en_default e) (enum_names e) with
                | Some i => Ok (RVariant i [])
                | None => Stuck
                end
            | Some (IStruct s) =>
                vs <- mapM (fun fd => v <- default_of n (fd_ty fd);; Ok (with_attr (fd_attr fd) v)) (st_fields s);;
                Ok (RSeq vs)
            | Some (IUnion u) =>
                match variant_named (fst (un_default u)) O (un_variants u) with
                | Some (i, va) =>
                    vs <- mapM (fun t => v <- default_of n t;; Ok (with_attr (va_attr va) v)) (va_tys va);;
                    Ok (RVariant i vs)
                | None => Stuck
                end
            | None => Stuck
            end
        end
    end.
End File.
