(** Small specifications used by single properties. *)
From Verif Require Import Base SerModel RustTypes SpecTypes.

(** ** Types whose read side and write side agree (C13)

    No maps (reading one drops duplicate keys); for signed32 and XdrIndexer
    types the number of a value that can be read is read as this value; every
    variant of an XdrUnion type carries its discriminant. *)
Definition signed32_settles (asr : list Z) (tf : list (Z * nat)) (d : dflt nat) : Prop :=
  forall z i, with_dflt (assoc Z.eqb z tf) d = DVal i ->
    exists z', nth_error asr i = Some z' /\ i32_range z' /\ with_dflt (assoc Z.eqb z' tf) d = DVal i.

Definition indexer_settles {B} (vss : list (string * B)) (index : list (string * Z))
    (names : list (Z * string)) (d : dflt string) : Prop :=
  NoDup (map fst vss) /\
  forall z name b, with_dflt (assoc Z.eqb z names) d = DVal name -> In (name, b) vss ->
    exists z', assoc String.eqb name index = Some z' /\ i32_range z' /\
      with_dflt (assoc Z.eqb z' names) d = DVal name.

(** AsRef and TryFrom, index and name_by_index are inverse (C23, C24) *)
Definition signed32_inverse (asr : list Z) (tf : list (Z * nat)) (d : dflt nat) : Prop :=
  (forall i z, nth_error asr i = Some z ->
     i32_range z /\ with_dflt (assoc Z.eqb z tf) d = DVal i) /\
  (forall z i, with_dflt (assoc Z.eqb z tf) d = DVal i -> (i < length asr)%nat).

Definition indexer_inverse {B} (vss : list (string * B)) (index : list (string * Z))
    (names : list (Z * string)) (d : dflt string) : Prop :=
  NoDup (map fst vss) /\
  (forall name b, In (name, b) vss -> exists z, assoc String.eqb name index = Some z /\
     i32_range z /\ with_dflt (assoc Z.eqb z names) d = DVal name).

Fixpoint reversible (t : ty) : Prop :=
  let all := fold_right (fun t P => reversible t /\ P) True in
  let allf := fold_right (fun '(_, t) P => reversible t /\ P) True in
  match t with
  | TMap _ _ => False
  | TOption t | TNewtype t | TBox t | TSeq t | TArray _ t => reversible t
  | TTuple ts | TTupleStruct ts => all ts
  | TStruct ts => allf ts
  | TEnum vss =>
      fold_right (fun '(_, sh) P =>
        match sh with
        | VUnit => True
        | VNewtype t => reversible t
        | VTuple ts => all ts
        | VStruct ts => allf ts
        end /\ P) True vss
  | TSigned32 asr tf d => signed32_settles asr tf d
  | TIndexer vss index names d =>
      indexer_settles vss index names d /\ fold_right (fun '(_, ts) P => all ts /\ P) True vss
  | TUnion vss disc names d =>
      NoDup (map fst vss) /\ reversible disc /\
      fold_right (fun '(_, o) P =>
        match o with Some ts => all ts | None => False end /\ P) True vss
  | _ => True
  end.

(** every type of the environment *)
Definition env_all (P : ty -> Prop) (E : env) : Prop := forall x t, lookup E x = Some t -> P t.

(** ** Types whose user-written tables cannot make the decoder panic (C09) *)
Definition table_total {K B} (eqb : K -> K -> bool) (vss : list (string * B))
    (names : list (K * string)) (d : dflt string) : Prop :=
  d <> DPanic /\
  forall k name, with_dflt (assoc eqb k names) d = DVal name -> exists b, In (name, b) vss.

Fixpoint tables_total (t : ty) : Prop :=
  let all := fold_right (fun t P => tables_total t /\ P) True in
  let allf := fold_right (fun '(_, t) P => tables_total t /\ P) True in
  match t with
  | TMap k v => tables_total k /\ tables_total v
  | TOption t | TNewtype t | TBox t | TSeq t | TArray _ t => tables_total t
  | TTuple ts | TTupleStruct ts => all ts
  | TStruct ts => allf ts
  | TEnum vss =>
      fold_right (fun '(_, sh) P =>
        match sh with
        | VUnit => True
        | VNewtype t => tables_total t
        | VTuple ts => all ts
        | VStruct ts => allf ts
        end /\ P) True vss
  | TSigned32 _ _ d => d <> DPanic
  | TIndexer vss _ names d =>
      table_total Z.eqb vss names d /\
      fold_right (fun '(_, ts) P => ((length ts <= 9)%nat /\ all ts) /\ P) True vss
  | TUnion vss disc names d =>
      table_total rval_eqb vss names d /\ tables_total disc /\
      fold_right (fun '(_, o) P =>
        match o with Some ts => (length ts <= 9)%nat /\ all ts | None => True end /\ P) True vss
  | _ => True
  end.

(** ** Types every encoding of which occupies at least one XDR unit (C21, C28) *)
Inductive occupies (E : env) : ty -> Prop :=
| oc_bool : occupies E TBool
| oc_int s w : occupies E (TInt s w)
| oc_f32 : occupies E TF32
| oc_f64 : occupies E TF64
| oc_char : occupies E TChar
| oc_str : occupies E TStr
| oc_bytes : occupies E TByteBuf
| oc_option t : occupies E (TOption t)
| oc_seq t : occupies E (TSeq t)
| oc_map k v : occupies E (TMap k v)
| oc_enum vss : occupies E (TEnum vss)
| oc_fopaque k : (0 < k)%nat -> occupies E (TOpaqueFixed k)
| oc_opaque : occupies E TOpaqueVar
| oc_signed32 a b d : occupies E (TSigned32 a b d)
| oc_indexer a b c d : occupies E (TIndexer a b c d)
| oc_union vss disc names d : occupies E disc -> occupies E (TUnion vss disc names d)
| oc_newtype t : occupies E t -> occupies E (TNewtype t)
| oc_box t : occupies E t -> occupies E (TBox t)
| oc_array k t : (0 < k)%nat -> occupies E t -> occupies E (TArray k t)
| oc_tuple ts t : In t ts -> occupies E t -> occupies E (TTuple ts)
| oc_tuple_struct ts t : In t ts -> occupies E t -> occupies E (TTupleStruct ts)
| oc_struct ts f t : In (f, t) ts -> occupies E t -> occupies E (TStruct ts)
| oc_ref x t : lookup E x = Some t -> occupies E t -> occupies E (TRef x).

(** ** Faults of a serialization, in the order they are met (C17) *)
Inductive fault := UnknownLength | BigVariant | Int128 | UserError | UserPanic.

Fixpoint faults (s : sval) : list fault :=
  let variant idx := if idx <? 2 ^ 31 then [] else [BigVariant] in
  let len (o : option Z) := match o with Some _ => [] | None => [UnknownLength] end in
  match s with
  | SI128 _ | SU128 _ => [Int128]
  | SSome v | SNewtypeStruct v => faults v
  | SUnitVariant idx => variant idx
  | SNewtypeVariant idx v => variant idx ++ faults v
  | SSeq o l => len o ++ flat_map faults l
  | STuple l | STupleStruct l | SStruct l => flat_map faults l
  | STupleVariant idx l | SStructVariant idx l => variant idx ++ flat_map faults l
  | SMap o l => len o ++ flat_map (fun '(k, v) => faults k ++ faults v) l
  | SFail => [UserError]
  | SPanic => [UserPanic]
  | _ => []
  end.

(** what the caller of to_bytes sees for a fault *)
Definition fault_result {A} (f : fault) : res A :=
  match f with
  | UnknownLength => Err ENotSupported
  | BigVariant => Err EConvert
  | Int128 => Err (ECustom MUnsupported128)
  | UserError => Err (ECustom MUser)
  | UserPanic => Panic
  end.

(** ** Types whose recursion reads at least one XDR unit per turn (C28)

    [guarded d E strict t]: following the members of [t] to depth [d], every
    use of a named type is reached after an XDR unit has been read (optional
    data, sequence, map, enum or XdrIndexer variant), or ([strict]) is itself
    guarded. *)
Fixpoint guarded (d : nat) (E : env) (strict : bool) (t : ty) : bool :=
  match d with
  | O => false
  | S d =>
    match t with
    | TOption t | TSeq t => guarded d E false t
    | TMap k v => guarded d E false k && guarded d E false v
    | TNewtype t | TBox t | TArray _ t => guarded d E strict t
    | TTuple ts | TTupleStruct ts => forallb (guarded d E strict) ts
    | TStruct ts => forallb (fun f => guarded d E strict (snd f)) ts
    | TEnum vss =>
        forallb (fun '(_, sh) =>
          match sh with
          | VUnit => true
          | VNewtype t => guarded d E false t
          | VTuple ts => forallb (guarded d E false) ts
          | VStruct ts => forallb (fun f => guarded d E false (snd f)) ts
          end) vss
    | TIndexer vss _ _ _ => forallb (fun '(_, ts) => forallb (guarded d E false) ts) vss
    | TUnion vss disc _ _ =>
        guarded d E strict disc &&
        forallb (fun '(_, o) =>
          match o with Some ts => forallb (guarded d E strict) ts | None => true end) vss
    | TRef x =>
        if strict then match lookup E x with Some t => guarded d E strict t | None => true end
        else true
    | _ => true
    end
  end.

Definition env_guarded (d : nat) (E : env) : Prop := env_all (fun t => guarded d E true t = true) E.

(** ** Encodings as a relation (C26) *)
Definition encodes (E : env) (t : ty) (v : rval) (b : list byte) : Prop :=
  returns (fun n => to_bytes n E t v) (Ok b).

Inductive encodes_all (E : env) : list ty -> list rval -> list byte -> Prop :=
| enc_nil : encodes_all E [] [] []
| enc_cons t ts v vs b bs : encodes E t v b -> encodes_all E ts vs bs ->
    encodes_all E (t :: ts) (v :: vs) (b ++ bs).

(** ** Number of bytes or elements that the length prefix of a value must give (C18) *)
Definition wire_len (t : ty) (v : rval) : option Z :=
  match t, v with
  | TStr, RStr bs | TByteBuf, RBytes bs | TOpaqueVar, RBytes bs => Some (zlen bs)
  | TSeq _, RSeq vs => Some (zlen vs)
  | TMap _ _, RMap kvs => Some (zlen kvs)
  | _, _ => None
  end.
