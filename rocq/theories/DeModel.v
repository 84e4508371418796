(** Model of serde-xdr/src/de.rs and of the [Deserialize] impls of the types of
    RustTypes.v (serde's std impls, [#[derive(Deserialize)]], opaque.rs,
    primitive.rs, serde-xdr-derive). *)
From Verif Require Import Base Utf8 SerModel RustTypes.

(** [Deserializer::input], de.rs:7-9: the unread bytes *)
Notation st := (list byte).

Notation parser A := (st -> res (A * st)).

(** de.rs:39-47 *)
Definition read (len : Z) : parser (list byte) := fun i =>
  if zlen i <? len then Err (ENotEnoughData (len - zlen i))
  else Ok (firstn (Z.to_nat len) i, skipn (Z.to_nat len) i).

(** de.rs:49-52; the slice has 4 bytes so [try_into] cannot fail *)
Definition read_i32 : parser Z := fun i => '(v, i) <- read 4 i;; Ok (wrap_s 32 (be_val v), i).
(** de.rs:54-57 *)
Definition read_i64 : parser Z := fun i => '(v, i) <- read 8 i;; Ok (wrap_s 64 (be_val v), i).
(** de.rs:59-62 *)
Definition read_u32 : parser Z := fun i => '(v, i) <- read 4 i;; Ok (be_val v, i).
(** de.rs:64-67 *)
Definition read_u64 : parser Z := fun i => '(v, i) <- read 8 i;; Ok (be_val v, i).
(** de.rs:69-72, as bits *)
Definition read_f32 : parser Z := fun i => '(v, i) <- read 4 i;; Ok (be_val v, i).
(** de.rs:74-77, as bits *)
Definition read_f64 : parser Z := fun i => '(v, i) <- read 8 i;; Ok (be_val v, i).
(** de.rs:79-82 *)
Definition read_char : parser Z := fun i =>
  '(code, i) <- read_u32 i;; if char_ok code then Ok (code, i) else Err EConvert.

(** [&self.input[n..]]: panics when fewer than n bytes are left;
    de.rs:91, 102 *)
Definition slice_from (n : Z) (i : st) : res st :=
  if zlen i <? n then Panic else Ok (skipn (Z.to_nat n) i).

(** de.rs:84-94 *)
Definition read_string : parser (list byte) := fun i =>
  '(size, i) <- read_u32 i;;
  let padding_size := 4 - size mod 4 in
  '(v, i) <- read size i;;
  if utf8_ok v then
    if padding_size <? 4 then i <- slice_from padding_size i;; Ok (v, i)
    else Ok (v, i)
  else Err EEncoding.

(** de.rs:96-105 *)
Definition read_bytes : parser (list byte) := fun i =>
  '(size, i) <- read_u32 i;;
  let padding_size := 4 - size mod 4 in
  '(v, i) <- read size i;;
  if padding_size <? 4 then i <- slice_from padding_size i;; Ok (v, i)
  else Ok (v, i).

(** de.rs:11-14, [Seq] (and [Map], de.rs:16-19): remaining count and input *)
Notation seq := (Z * st)%type.

(** de.rs:353-363 (and [Map::next_key_seed], 379-389) *)
Definition next_element {A} (seed : parser A) (s : seq) : res (option A * seq) :=
  let '(count, i) := s in
  if count =? 0 then Ok (None, s)
  else '(a, i) <- seed i;; Ok (Some a, (count - 1, i)).

(** ** Visitors *)

(** serde's visitor for Vec<T>: [while let Some(v) = seq.next_element()?];
    the loop ends after at most count+1 rounds, hence the bound.
    (capacity hints are not modelled) *)
Definition visit_vec {A} (seed : parser A) (s : seq) : res (list A * st) :=
  match
    loopZ (fun '(acc, s) =>
             match next_element seed s with
             | Ok (Some a, s') => inl (a :: acc, s')
             | Ok (None, (_, i)) => inr (Ok (rev acc, i))
             | Err e => inr (Err e)
             | Panic => inr Panic
             | Fuel => inr Fuel
             | Stuck => inr Stuck
             end)
          (fst s + 1) ([], s)
  with
  | inr r => r
  | inl _ => Fuel
  end.

(** serde's visitors for tuples, tuple structs, structs and arrays: one
    [next_element] per member, missing member = invalid length;
    [pos] is the number of members read so far. *)
Fixpoint visit_fields {A} (seeds : list (parser A)) (pos : Z) (s : seq) : res (list A * seq) :=
  match seeds with
  | [] => Ok ([], s)
  | p :: ps =>
      '(o, s) <- next_element p s;;
      match o with
      | None => Err (ECustom (MInvalidLength pos))
      | Some a => '(l, s) <- visit_fields ps (pos + 1) s;; Ok (a :: l, s)
      end
  end.

(** [seq.next_element::<T>()?.unwrap()] for each field;
    serde-xdr-derive/src/lib.rs:33-35, 151-153 *)
Fixpoint visit_fields_unwrap {A} (seeds : list (parser A)) (s : seq) : res (list A * seq) :=
  match seeds with
  | [] => Ok ([], s)
  | p :: ps =>
      '(o, s) <- next_element p s;;
      match o with
      | None => Panic
      | Some a => '(l, s) <- visit_fields_unwrap ps s;; Ok (a :: l, s)
      end
  end.

(** Insertion into a map, kept as entries in insertion order: an existing key
    keeps its place and gets the new value. *)
Fixpoint map_insert (k v : rval) (m : list (rval * rval)) : list (rval * rval) :=
  match m with
  | [] => [(k, v)]
  | (k', v') :: t => if rval_eqb k k' then (k', v) :: t else (k', v') :: map_insert k v t
  end.

(** serde's map visitor: [while let Some((k, v)) = map.next_entry()?] insert;
    de.rs:376-397 *)
Definition visit_map (kseed vseed : parser rval) (s : seq) : res (list (rval * rval) * st) :=
  '(l, i) <- visit_vec (fun i => '(k, i) <- kseed i;; '(v, i) <- vseed i;; Ok ((k, v), i)) s;;
  Ok (fold_left (fun m kv => map_insert (fst kv) (snd kv) m) l [], i).

(** opaque.rs:78-83: copy bytes of one word while [idx < size]; the vector
    [bytes] is represented by its written prefix (reversed), see below *)
Definition copy_word (size : Z) (word : list byte) (w : list byte) : list byte :=
  fold_left (fun w b => if zlen w <? size then b :: w else w) word w.

(** opaque.rs:66-88.  [bytes] is [vec![0u8; size]] with the first [idx]
    positions overwritten: written prefix followed by zeros. *)
Definition enumerate_u8 (s : seq) : res (list byte * st) :=
  let size := fst s in
  let padded_len := (size + 3) / 4 in            (* size.div_ceil(4) *)
  match
    loopZ (fun '(w, s) =>
             match next_element read_u32 s with
             | Ok (Some v, s') => inl (copy_word size (be_bytes 4 v) w, s')
             | Ok (None, s') => inl (w, s')
             | Err e => inr (Err e)
             | Panic => inr Panic
             | Fuel => inr Fuel
             | Stuck => inr Stuck
             end)
          padded_len ([], s)
  with
  | inr r => r
  | inl (w, (_, i)) => Ok (rev w ++ repeat x00 (Z.to_nat (size - zlen w)), i)
  end.

(** opaque.rs:24-37, 110-116; [try_into().unwrap()] panics unless the length is N *)
Definition de_opaque_fixed (n : nat) : parser (list byte) := fun i =>
  '(bs, i) <- enumerate_u8 (Z.of_nat n, i);;
  if Nat.eqb (length bs) n then Ok (bs, i) else Panic.

(** opaque.rs:139-145, 39-52 with de.rs:270-276 *)
Definition de_opaque_variable : parser (list byte) := fun i =>
  '(count, i) <- read_u32 i;; enumerate_u8 (count, i).

(** de.rs:125-193 *)
Definition de_int (signed : bool) (w : width) : parser Z := fun i =>
  match signed, w with
  | true, W8 => '(z, i) <- read_i32 i;; Ok (wrap_s 8 z, i)
  | true, W16 => '(z, i) <- read_i32 i;; Ok (wrap_s 16 z, i)
  | true, W32 => read_i32 i
  | true, W64 => read_i64 i
  | false, W8 => '(z, i) <- read_u32 i;; Ok (wrap_u 8 z, i)
  | false, W16 => '(z, i) <- read_u32 i;; Ok (wrap_u 16 z, i)
  | false, W32 => read_u32 i
  | false, W64 => read_u64 i
  | _, W128 => Err (ECustom MUnsupported128)     (* serde default method *)
  end.

(** de.rs:409-417 with the variant visitor of serde derive
    (visit_u64: index below the number of variants, else an error) *)
Definition de_variant_index (k : nat) : parser nat := fun i =>
  '(z, i) <- read_i32 i;;
  if z <? 0 then Err EConvert
  else if z <? Z.of_nat k then Ok (Z.to_nat z, i)
  else Err (ECustom (MInvalidVariant z)).

(** position of a variant name ([match variant { stringify!(A) => .. }]) *)
Fixpoint find_variant {B} (name : string) (l : list (string * B)) (pos : nat) : option (nat * B) :=
  match l with
  | [] => None
  | (x, b) :: t => if String.eqb name x then Some (pos, b) else find_variant name t (S pos)
  end.

(** ** [Deserialize::deserialize] of a type *)
Fixpoint deser (n : nat) (E : env) (t : ty) (i : st) : res (rval * st) :=
  match n with
  | O => Fuel
  | S n =>
    match t with
    | TBool => '(z, i) <- read_u32 i;; Ok (RBool (negb (z =? 0)), i)       (* 118-123 *)
    | TInt s w => '(z, i) <- de_int s w i;; Ok (RInt z, i)
    | TF32 => '(z, i) <- read_f32 i;; Ok (RFloat z, i)                      (* 181-186 *)
    | TF64 => '(z, i) <- read_f64 i;; Ok (RFloat z, i)                      (* 188-193 *)
    | TChar => '(z, i) <- read_char i;; Ok (RChar z, i)                     (* 195-200 *)
    | TStr => '(bs, i) <- read_string i;; Ok (RStr bs, i)                   (* 209-214 *)
    | TByteBuf => '(bs, i) <- read_bytes i;; Ok (RBytes bs, i)              (* 223-228 *)
    | TOption t =>                                                           (* 230-239 *)
        '(z, i) <- read_u32 i;;
        if z =? 0 then Ok (RNone, i)
        else '(v, i) <- deser n E t i;; Ok (RSome v, i)
    | TUnit => Ok (RUnit, i)                                                 (* 241-246 *)
    | TUnitStruct => Ok (RUnit, i)                                           (* 248-257 *)
    | TNewtype t => deser n E t i                                            (* 259-268 *)
    | TBox t => deser n E t i
    | TSeq t =>                                                              (* 270-276 *)
        '(count, i) <- read_u32 i;;
        '(l, i) <- visit_vec (deser n E t) (count, i);; Ok (RSeq l, i)
    | TArray k t =>                                                          (* 278-283 *)
        '(l, s) <- visit_fields (repeat (deser n E t) k) 0 (Z.of_nat k, i);;
        Ok (RSeq l, snd s)
    | TTuple ts =>                                                           (* 278-283 *)
        '(l, s) <- visit_fields (map (deser n E) ts) 0 (zlen ts, i);; Ok (RSeq l, snd s)
    | TTupleStruct ts =>                                                     (* 285-295 *)
        '(l, s) <- visit_fields (map (deser n E) ts) 0 (zlen ts, i);; Ok (RSeq l, snd s)
    | TStruct ts =>                                                          (* 305-315 *)
        '(l, s) <- visit_fields (map (fun f => deser n E (snd f)) ts) 0 (zlen ts, i);;
        Ok (RSeq l, snd s)
    | TMap tk tv =>                                                          (* 297-303 *)
        '(count, i) <- read_u32 i;;
        '(m, i) <- visit_map (deser n E tk) (deser n E tv) (count, i);; Ok (RMap m, i)
    | TEnum vss =>                                                           (* 317-327 *)
        '(k, i) <- de_variant_index (length vss) i;;
        match nth_error vss k with
        | Some (_, VUnit) => Ok (RVariant k [], i)                           (* 423-425 *)
        | Some (_, VNewtype t) =>                                            (* 427-432 *)
            '(v, i) <- deser n E t i;; Ok (RVariant k [v], i)
        | Some (_, VTuple ts) =>                                             (* 434-439 *)
            '(l, s) <- visit_fields (map (deser n E) ts) 0 (zlen ts, i);;
            Ok (RVariant k l, snd s)
        | Some (_, VStruct ts) =>                                            (* 441-450 *)
            '(l, s) <- visit_fields (map (fun f => deser n E (snd f)) ts) 0 (zlen ts, i);;
            Ok (RVariant k l, snd s)
        | None => Stuck
        end
    | TOpaqueFixed k => '(bs, i) <- de_opaque_fixed k i;; Ok (RBytes bs, i)
    | TOpaqueVar => '(bs, i) <- de_opaque_variable i;; Ok (RBytes bs, i)
    | TSigned32 _ tf d =>                                                    (* primitive.rs:13-20 *)
        '(z, i) <- read_i32 i;;
        match with_dflt (assoc Z.eqb z tf) d with
        | DVal k => Ok (RVariant k [], i)
        | DErr => Err (ECustom (MCannotConvert z))
        | DPanic => Panic
        end
    | TIndexer vss _ names d =>                                              (* derive lib.rs:80-110 *)
        '(o, s) <- next_element read_i32 (10, i);;
        match o with
        | None => Panic
        | Some z =>
            match with_dflt (assoc Z.eqb z names) d with
            | DErr => Err (ECustom (MCannotConvert z))
            | DPanic => Panic
            | DVal name =>
                match find_variant name vss 0 with
                | None => Panic                                              (* unimplemented!() *)
                | Some (k, ts) =>
                    '(l, s) <- visit_fields_unwrap (map (deser n E) ts) s;;
                    Ok (RVariant k l, snd s)
                end
            end
        end
    | TUnion vss disc names d =>                                             (* derive lib.rs:203-233 *)
        '(o, s) <- next_element (deser n E disc) (10, i);;
        match o with
        | None => Panic
        | Some v =>
            match with_dflt (assoc rval_eqb v names) d with
            | DErr => Err (ECustom MCannotConvertValue)
            | DPanic => Panic
            | DVal name =>
                match find_variant name vss 0 with
                | None => Panic
                | Some (k, None) => Ok (RVariant k [], snd s)
                | Some (k, Some ts) =>
                    '(l, s) <- visit_fields_unwrap (map (deser n E) ts) s;;
                    Ok (RVariant k (v :: l), snd s)
                end
            end
        end
    | TRef x => match lookup E x with Some t => deser n E t i | None => Stuck end
    end
  end.

(** de.rs:25-36 *)
Definition from_bytes (n : nat) (E : env) (t : ty) (value : list byte) : res rval :=
  '(v, rest) <- deser n E t value;;
  match rest with
  | [] => Ok v
  | _ => Err (ETrailingData (zlen rest))
  end.

(** ** Heap allocation while reading byte strings (C20)

    Bytes requested from the allocator by [opaque::variable::deserialize]:
    [vec![0u8; size]] before any content is read; opaque.rs:66-72, de.rs:270-276 *)
Definition alloc_opaque_variable (i : st) : Z :=
  match read_u32 i with Ok (size, _) => size | _ => 0 end.

(** ... and by reading a String or ByteBuf: a copy of the slice that [read]
    returned ([to_string] / [to_vec] in serde's visitors); de.rs:84-105, 209-228 *)
Definition alloc_read_bytes (i : st) : Z :=
  match read_u32 i with
  | Ok (size, i) => match read size i with Ok (v, _) => zlen v | _ => 0 end
  | _ => 0
  end.
