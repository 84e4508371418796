(** Specifications about arbitrary [Serialize] and [Deserialize] impls. *)
From Verif Require Import Base SpecUtf8 SerModel RustTypes SpecXdr SpecTypes VisitModel.

(** ** Impls that do not panic themselves (C92) *)
Definition quiet {A} (r : result A) : Prop := r <> Crash.

Fixpoint calm {A} (p : impl A) : Prop :=
  match p with
  | Ask q on => forall v, calm_act (on v)
  end
with calm_act {A} (a : act A) : Prop :=
  match a with
  | Done r => quiet r
  | More p => calm p
  | Next seed k => calm seed /\ forall o, calm_act (k o)
  | Value seed k => calm seed /\ forall b, calm_act (k b)
  | Variant seed k => (forall z, quiet (seed z)) /\ forall b, calm_act (k b)
  end.

(** ** What a [Serialize] impl says, as a stream (C93)

    The values of serde's data model without any encoding.  Kinds that a
    format without field names and without type tags does not tell apart
    (a tuple, a struct, a newtype, unit) leave nothing in the stream. *)
Inductive tok :=
| KBool (b : bool) | KInt (s : bool) (w : width) (z : Z) | KF32 (z : Z) | KF64 (z : Z) | KChar (c : Z)
| KStr (bs : list byte) | KBytes (bs : list byte) | KNone | KSome | KLen (n : Z) | KIndex (z : Z).

Fixpoint tokens (s : sval) : list tok :=
  let all := flat_map tokens in
  let len o := match o with Some n => [KLen n] | None => [] end in
  match s with
  | SBool b => [KBool b]
  | SI8 z => [KInt true W8 z] | SI16 z => [KInt true W16 z] | SI32 z => [KInt true W32 z]
  | SI64 z => [KInt true W64 z] | SI128 z => [KInt true W128 z]
  | SU8 z => [KInt false W8 z] | SU16 z => [KInt false W16 z] | SU32 z => [KInt false W32 z]
  | SU64 z => [KInt false W64 z] | SU128 z => [KInt false W128 z]
  | SF32 z => [KF32 z] | SF64 z => [KF64 z]
  | SChar c => [KChar c]
  | SStr bs => [KStr bs]
  | SBytes bs => [KBytes bs]
  | SNone => [KNone]
  | SSome s => KSome :: tokens s
  | SUnit | SUnitStruct | SFail | SPanic => []
  | SUnitVariant idx => [KIndex idx]
  | SNewtypeStruct s => tokens s
  | SNewtypeVariant idx s => KIndex idx :: tokens s
  | SSeq o l => len o ++ all l
  | STuple l | STupleStruct l | SStruct l => all l
  | STupleVariant idx l | SStructVariant idx l => KIndex idx :: all l
  | SMap o l => len o ++ flat_map (fun '(k, v) => tokens k ++ tokens v) l
  end.

(** values that exist in Rust, with lengths and indices that fit an unsigned int *)
Definition tok_ok (k : tok) : Prop :=
  match k with
  | KInt s w z => int_range s w z
  | KF32 z => 0 <= z < 2 ^ 32
  | KF64 z => 0 <= z < 2 ^ 64
  | KChar c => is_scalar c
  | KStr bs => valid_utf8 bs /\ zlen bs < 2 ^ 32
  | KBytes bs => zlen bs < 2 ^ 32
  | KLen n => 0 <= n < 2 ^ 32
  | KIndex z => 0 <= z < 2 ^ 32
  | _ => True
  end.

(** An ideal format without type tags: it answers every question with the next
    value of the stream if this is of the kind asked for.  Bytes and strings
    only answer questions for bytes and strings, a length only one for a
    sequence or map. *)
Definition hear_ask (q : ask) (ks : list tok) : option (visit * list tok) :=
  match q, ks with
  | ABool, KBool b :: ks => Some (VsBool b, ks)
  | AInt s w, KInt s' w' z :: ks =>
      if (Bool.eqb s s' && (bits w =? bits w'))%bool then Some (VsInt z, ks) else None
  | AF32, KF32 z :: ks => Some (VsF32 z, ks)
  | AF64, KF64 z :: ks => Some (VsF64 z, ks)
  | AChar, KChar c :: ks => Some (VsChar c, ks)
  | (AStr | AString | AIdentifier), KStr bs :: ks => Some (VsStr bs, ks)
  | (ABytes | AByteBuf), KBytes bs :: ks => Some (VsBytes bs, ks)
  | AOption, KNone :: ks => Some (VsNone, ks)
  | AOption, KSome :: ks => Some (VsSome, ks)
  | (AUnit | AUnitStruct), ks => Some (VsUnit, ks)
  | ANewtype, ks => Some (VsNewtype, ks)
  | ASeq, KLen n :: ks => Some (VsSeq n, ks)
  | AMap, KLen n :: ks => Some (VsMap n, ks)
  | (ATuple n | ATupleStruct n | AStruct n), ks => Some (VsSeq n, ks)
  | AEnum, ks => Some (VsEnum, ks)
  | _, _ => None
  end.

(** an impl reading a stream: [Some] if it is answered everywhere and returns
    a value *)
Definition and_then {A B} (o : option A) (f : A -> option B) : option B :=
  match o with Some a => f a | None => None end.
Definition given {A} (r : result A) : option A := match r with Give a => Some a | _ => None end.

Fixpoint hear {A} (p : impl A) (ks : list tok) : option (A * list tok) :=
  match p in impl A return option (A * list tok) with
  | Ask q on => and_then (hear_ask q ks) (fun '(v, ks) => hear_act (on v) (count_of v) ks)
  end
with hear_act {A} (a : act A) (c : Z) (ks : list tok) : option (A * list tok) :=
  match a in act A return option (A * list tok) with
  | Done r => and_then (given r) (fun a => Some (a, ks))
  | More p => hear p ks
  | Next seed k =>
      if c =? 0 then hear_act (k None) c ks
      else and_then (hear seed ks) (fun '(b, ks) => hear_act (k (Some b)) (c - 1) ks)
  | Value seed k => and_then (hear seed ks) (fun '(b, ks) => hear_act (k b) c ks)
  | Variant seed k =>
      match ks with
      | KIndex z :: ks => and_then (given (seed z)) (fun b => hear_act (k b) c ks)
      | _ => None
      end
  end.
