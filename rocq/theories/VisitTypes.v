(** The [Deserialize] impls of the types of RustTypes.v as impls of
    VisitModel.v: which method of the deserializer they call and what their
    visitors do (serde's std impls, [#[derive(Deserialize)]], opaque.rs,
    primitive.rs, serde-xdr-derive).  [deser] of DeModel.v is the same with the
    deserializer put in; VisitAgree.v proves it. *)
From Verif Require Import Base SerModel RustTypes DeModel VisitModel.

Definition bad {A} : act A := Done Ill.
Definition give {A} (a : A) : act A := Done (Give a).

(** one [next_element] per member, missing member = invalid length *)
Fixpoint take {A B} (ps : list (impl A)) (pos : Z) (k : list A -> act B) : act B :=
  match ps with
  | [] => k []
  | p :: ps =>
      Next p (fun o =>
        match o with
        | None => Done (Fail (MInvalidLength pos))
        | Some a => take ps (pos + 1) (fun l => k (a :: l))
        end)
  end.

(** [seq.next_element::<T>()?.unwrap()] per field; serde-xdr-derive/src/lib.rs:33-35, 151-153 *)
Fixpoint take_unwrap {A B} (ps : list (impl A)) (k : list A -> act B) : act B :=
  match ps with
  | [] => k []
  | p :: ps =>
      Next p (fun o =>
        match o with
        | None => Done Crash
        | Some a => take_unwrap ps (fun l => k (a :: l))
        end)
  end.

(** [while let Some(v) = seq.next_element()?] at most [n] times *)
Fixpoint take_all {A B} (n : nat) (p : impl A) (k : list A -> act B) : act B :=
  match n with
  | O => Done Bound
  | S n => Next p (fun o => match o with None => k [] | Some a => take_all n p (fun l => k (a :: l)) end)
  end.

(** [while let Some((k, v)) = map.next_entry()?] at most [n] times *)
Fixpoint take_entries {K V B} (n : nat) (kp : impl K) (vp : impl V) (k : list (K * V) -> act B) : act B :=
  match n with
  | O => Done Bound
  | S n =>
      Next kp (fun o =>
        match o with
        | None => k []
        | Some key => Value vp (fun v => take_entries n kp vp (fun l => k ((key, v) :: l)))
        end)
  end.

(** i32 and u32 *)
Definition int_impl (s : bool) : impl Z :=
  Ask (AInt s W32) (fun v => match v with VsInt z => give z | _ => bad end).

(** opaque.rs:66-88 *)
Fixpoint copy_words {B} (n : nat) (size : Z) (w : list byte) (k : list byte -> act B) : act B :=
  match n with
  | O => k (rev w ++ repeat x00 (Z.to_nat (size - zlen w)))
  | S n =>
      Next (int_impl false) (fun o =>
        copy_words n size (match o with Some v => copy_word size (be_bytes 4 v) w | None => w end) k)
  end.
Definition opaque_act {B} (c : Z) (k : list byte -> act B) : act B := copy_words (Z.to_nat ((c + 3) / 4)) c [] k.

(** the variant visitor of serde derive (visit_u64) *)
Definition variant_of (k : nat) (z : Z) : result nat :=
  if z <? Z.of_nat k then Give (Z.to_nat z) else Fail (MInvalidVariant z).

Definition on_seq {A} (k : Z -> act A) (v : visit) : act A := match v with VsSeq c => k c | _ => bad end.

Fixpoint impl_of (n : nat) (E : env) (t : ty) : impl rval :=
  match n with
  | O => Ask AUnit (fun _ => Done Bound)
  | S n =>
    let members ts (k : list rval -> rval) := on_seq (fun _ => take (map (impl_of n E) ts) 0 (fun l => give (k l))) in
    let fields (ts : list (string * ty)) (k : list rval -> rval) :=
      on_seq (fun _ => take (map (fun f => impl_of n E (snd f)) ts) 0 (fun l => give (k l))) in
    match t with
    | TBool => Ask ABool (fun v => match v with VsBool b => give (RBool b) | _ => bad end)
    | TInt s w => Ask (AInt s w) (fun v => match v with VsInt z => give (RInt z) | _ => bad end)
    | TF32 => Ask AF32 (fun v => match v with VsF32 z => give (RFloat z) | _ => bad end)
    | TF64 => Ask AF64 (fun v => match v with VsF64 z => give (RFloat z) | _ => bad end)
    | TChar => Ask AChar (fun v => match v with VsChar z => give (RChar z) | _ => bad end)
    | TStr => Ask AString (fun v => match v with VsStr bs => give (RStr bs) | _ => bad end)
    | TByteBuf => Ask AByteBuf (fun v => match v with VsBytes bs => give (RBytes bs) | _ => bad end)
    | TOption t =>
        Ask AOption (fun v =>
          match v with
          | VsNone => give RNone
          | VsSome => Value (impl_of n E t) (fun v => give (RSome v))
          | _ => bad
          end)
    | TUnit => Ask AUnit (fun v => match v with VsUnit => give RUnit | _ => bad end)
    | TUnitStruct => Ask AUnitStruct (fun v => match v with VsUnit => give RUnit | _ => bad end)
    | TNewtype t => Ask ANewtype (fun v => match v with VsNewtype => More (impl_of n E t) | _ => bad end)
    | TBox t => impl_of n E t
    | TSeq t =>
        Ask ASeq (on_seq (fun c => take_all (Z.to_nat (c + 1)) (impl_of n E t) (fun l => give (RSeq l))))
    | TArray k t =>
        Ask (ATuple (Z.of_nat k)) (on_seq (fun _ => take (repeat (impl_of n E t) k) 0 (fun l => give (RSeq l))))
    | TTuple ts => Ask (ATuple (zlen ts)) (members ts RSeq)
    | TTupleStruct ts => Ask (ATupleStruct (zlen ts)) (members ts RSeq)
    | TStruct ts => Ask (AStruct (zlen ts)) (fields ts RSeq)
    | TMap tk tv =>
        Ask AMap (fun v =>
          match v with
          | VsMap c =>
              take_entries (Z.to_nat (c + 1)) (impl_of n E tk) (impl_of n E tv)
                (fun l => give (RMap (fold_left (fun m kv => map_insert (fst kv) (snd kv) m) l [])))
          | _ => bad
          end)
    | TEnum vss =>
        Ask AEnum (fun v =>
          match v with
          | VsEnum =>
              Variant (variant_of (length vss)) (fun k =>
                match nth_error vss k with
                | Some (_, VUnit) => give (RVariant k [])
                | Some (_, VNewtype t) => Value (impl_of n E t) (fun v => give (RVariant k [v]))
                | Some (_, VTuple ts) => More (Ask (ATuple (zlen ts)) (members ts (RVariant k)))
                | Some (_, VStruct ts) => More (Ask (ATuple (zlen ts)) (fields ts (RVariant k)))
                | None => bad
                end)
          | _ => bad
          end)
    | TOpaqueFixed k =>                                     (* opaque.rs:24-37, 110-116 *)
        Ask (ATuple (Z.of_nat k)) (on_seq (fun c =>
          opaque_act c (fun bs => if Nat.eqb (length bs) k then give (RBytes bs) else Done Crash)))
    | TOpaqueVar =>                                         (* opaque.rs:39-52, 139-145 *)
        Ask ASeq (on_seq (fun c => opaque_act c (fun bs => give (RBytes bs))))
    | TSigned32 _ tf d =>                                   (* primitive.rs:13-20 *)
        Ask (AInt true W32) (fun v =>
          match v with
          | VsInt z =>
              match with_dflt (assoc Z.eqb z tf) d with
              | DVal k => give (RVariant k [])
              | DErr => Done (Fail (MCannotConvert z))
              | DPanic => Done Crash
              end
          | _ => bad
          end)
    | TIndexer vss _ names d =>                             (* serde-xdr-derive/src/lib.rs:80-110 *)
        Ask (ATuple 10) (on_seq (fun _ =>
          Next (int_impl true) (fun o =>
            match o with
            | None => Done Crash
            | Some z =>
                match with_dflt (assoc Z.eqb z names) d with
                | DErr => Done (Fail (MCannotConvert z))
                | DPanic => Done Crash
                | DVal name =>
                    match find_variant name vss 0 with
                    | None => Done Crash
                    | Some (k, ts) => take_unwrap (map (impl_of n E) ts) (fun l => give (RVariant k l))
                    end
                end
            end)))
    | TUnion vss disc names d =>                            (* serde-xdr-derive/src/lib.rs:203-233 *)
        Ask (ATuple 10) (on_seq (fun _ =>
          Next (impl_of n E disc) (fun o =>
            match o with
            | None => Done Crash
            | Some v =>
                match with_dflt (assoc rval_eqb v names) d with
                | DErr => Done (Fail MCannotConvertValue)
                | DPanic => Done Crash
                | DVal name =>
                    match find_variant name vss 0 with
                    | None => Done Crash
                    | Some (k, None) => give (RVariant k [])
                    | Some (k, Some ts) => take_unwrap (map (impl_of n E) ts) (fun l => give (RVariant k (v :: l)))
                    end
                end
            end)))
    | TRef x => match lookup E x with Some t => impl_of n E t | None => Ask AUnit (fun _ => bad) end
    end
  end.
