(** Model: the memory that decoding requests from the allocator (C107).

    [meter n E t i] is the sum of the sizes of all heap allocations that
    [T::deserialize] requests on the input [i], whether it succeeds or not.
    It follows [deser] (DeModel.v), which says how the reading goes on.

    [sz] is [std::mem::size_of] of a type, which Rust leaves open; [limit] is
    serde's MAX_PREALLOC_BYTES (1 MiB).  Not counted: the tables of maps and the
    messages of errors. *)
From Verif Require Import Base Utf8 SerModel RustTypes DeModel.

Section Alloc.
  Variable sz : ty -> Z.
  Variable limit : Z.

  (** serde's [size_hint::cautious] of the hint that [Seq::size_hint] gives,
      de.rs:365-367: the capacity with which the vector is created *)
  Definition cautious (size count : Z) : Z :=
    if size =? 0 then 0 else Z.min count (limit / size).
  (** std's RawVec, MIN_NON_ZERO_CAP and grow_amortized *)
  Definition min_cap (size : Z) : Z := if size =? 1 then 8 else if size <=? 1024 then 4 else 1.
  Definition grow (size cap : Z) : Z := Z.max (Z.max (2 * cap) (cap + 1)) (min_cap size).

  (** serde's visitor for Vec<T>: [Vec::with_capacity], then one [push] for
      every element; [m] meters an element and [p] reads it *)
  Definition meter_vec {A} (size : Z) (m : st -> Z) (p : parser A) (count : Z) (i : st) : Z :=
    let cap := cautious size count in
    match
      loopZ (fun '(i, len, cap, total) =>
               match p i with
               | Ok (_, i') =>
                   if (len =? cap) && negb (size =? 0)
                   then inl (i', len + 1, grow size cap, total + m i + size * grow size cap)
                   else inl (i', len + 1, cap, total + m i)
               | _ => inr (total + m i)
               end)
            count (i, 0, cap, size * cap)
    with
    | inr total => total
    | inl (_, _, _, total) => total
    end.

  (** one [next_element] per member of a seq of [count] elements *)
  Fixpoint meter_fields {A} (l : list ((st -> Z) * parser A)) (count : Z) (i : st) : Z :=
    match l with
    | [] => 0
    | (m, p) :: l =>
        if count =? 0 then 0
        else m i + match p i with Ok (_, i) => meter_fields l (count - 1) i | _ => 0 end
    end.

  Fixpoint meter (n : nat) (E : env) (t : ty) (i : st) : Z :=
    match n with
    | O => 0
    | S n =>
      let field t := (meter n E t, deser n E t) in
      match t with
      | TStr =>                                     (* [visit_borrowed_str]: to_owned; de.rs:209-214 *)
          match read_string i with Ok (bs, _) => zlen bs | _ => 0 end
      | TByteBuf => match read_bytes i with Ok (bs, _) => zlen bs | _ => 0 end      (* 223-228 *)
      | TOption t =>                                                                 (* 230-239 *)
          match read_u32 i with Ok (z, i) => if z =? 0 then 0 else meter n E t i | _ => 0 end
      | TNewtype t => meter n E t i
      | TBox t =>                                   (* [Box::new(T::deserialize(d)?)] *)
          meter n E t i + match deser n E t i with Ok _ => sz t | _ => 0 end
      | TSeq t =>                                                                    (* 270-276 *)
          match read_u32 i with
          | Ok (count, i) => meter_vec (sz t) (meter n E t) (deser n E t) count i
          | _ => 0
          end
      | TArray k t => meter_fields (repeat (field t) k) (Z.of_nat k) i               (* 278-283 *)
      | TTuple ts | TTupleStruct ts => meter_fields (map field ts) (zlen ts) i       (* 278-295 *)
      | TStruct ts => meter_fields (map (fun f => field (snd f)) ts) (zlen ts) i     (* 305-315 *)
      | TMap tk tv =>                               (* keys and values only; 297-303 *)
          match read_u32 i with
          | Ok (count, i) =>
              meter_vec 0
                (fun i => meter n E tk i + match deser n E tk i with Ok (_, i) => meter n E tv i | _ => 0 end)
                (fun i => '(k, i) <- deser n E tk i;; '(v, i) <- deser n E tv i;; Ok ((k, v), i))
                count i
          | _ => 0
          end
      | TEnum vss =>                                                                 (* 317-327 *)
          match de_variant_index (length vss) i with
          | Ok (k, i) =>
              match nth_error vss k with
              | Some (_, VNewtype t) => meter n E t i
              | Some (_, VTuple ts) => meter_fields (map field ts) (zlen ts) i
              | Some (_, VStruct ts) => meter_fields (map (fun f => field (snd f)) ts) (zlen ts) i
              | _ => 0
              end
          | _ => 0
          end
      | TOpaqueFixed k => Z.of_nat k                (* [vec![0u8; size]], opaque.rs:72 *)
      | TOpaqueVar =>                               (* the same with the announced size *)
          match read_u32 i with Ok (count, _) => count | _ => 0 end
      | TIndexer vss _ names d =>                                                    (* derive lib.rs:80-110 *)
          match read_i32 i with
          | Ok (z, i) =>
              match with_dflt (assoc Z.eqb z names) d with
              | DVal name =>
                  match find_variant name vss 0 with
                  | Some (_, ts) => meter_fields (map field ts) 9 i
                  | None => 0
                  end
              | _ => 0
              end
          | _ => 0
          end
      | TUnion vss disc names d =>                                                   (* derive lib.rs:203-233 *)
          meter n E disc i +
          match deser n E disc i with
          | Ok (v, i) =>
              match with_dflt (assoc rval_eqb v names) d with
              | DVal name =>
                  match find_variant name vss 0 with
                  | Some (_, Some ts) => meter_fields (map field ts) 9 i
                  | _ => 0
                  end
              | _ => 0
              end
          | _ => 0
          end
      | TRef x => match lookup E x with Some t => meter n E t i | None => 0 end
      | TBool | TInt _ _ | TF32 | TF64 | TChar | TUnit | TUnitStruct | TSigned32 _ _ _ => 0
      end
    end.
End Alloc.
