(** Model of [impl de::Deserializer] (serde-xdr/src/de.rs:39-450) for
    [Deserialize] impls that catch errors and go on.  [Deserializer::input] is
    changed in place, so that what a failed call has read stays read: here a
    call always returns a state, also with an error. *)
From Verif Require Import Base Utf8 SerModel RustTypes DeModel VisitModel.

(** result and unread bytes; after a panic these do not matter *)
Notation out A := (res A * st)%type.

Definition andthen {A B} (o : out A) (k : A -> st -> out B) : out B :=
  match o with
  | (Ok a, i) => k a i
  | (Err e, i) => (Err e, i)
  | (Panic, i) => (Panic, i)
  | (Fuel, i) => (Fuel, i)
  | (Stuck, i) => (Stuck, i)
  end.

(** de.rs:39-47: input is assigned only after the check; de.rs:49-77 and the
    integer methods (125-179) do nothing else with it *)
Definition keep {A} (p : parser A) (i : st) : out A :=
  match p i with
  | Ok (a, i) => (Ok a, i)
  | Err e => (Err e, i)
  | Panic => (Panic, i)
  | Fuel => (Fuel, i)
  | Stuck => (Stuck, i)
  end.
(** de.rs:79-82: the code is read when it turns out to be no char *)
Definition x_char (i : st) : out Z :=
  andthen (keep read_u32 i) (fun code i => (if char_ok code then Ok code else Err EConvert, i)).
(** de.rs:91, 102 *)
Definition x_skip (n : Z) (i : st) : out unit :=
  if zlen i <? n then (Panic, i) else (Ok tt, skipn (Z.to_nat n) i).
(** de.rs:84-94: the data is read when it turns out not to be UTF-8, the
    padding is not *)
Definition x_string (i : st) : out (list byte) :=
  andthen (keep read_u32 i) (fun size i =>
  let padding_size := 4 - size mod 4 in
  andthen (keep (read size) i) (fun v i =>
  if utf8_ok v then
    if padding_size <? 4 then andthen (x_skip padding_size i) (fun _ i => (Ok v, i)) else (Ok v, i)
  else (Err EEncoding, i))).
(** de.rs:96-105 *)
Definition x_bytes (i : st) : out (list byte) :=
  andthen (keep read_u32 i) (fun size i =>
  let padding_size := 4 - size mod 4 in
  andthen (keep (read size) i) (fun v i =>
  if padding_size <? 4 then andthen (x_skip padding_size i) (fun _ i => (Ok v, i)) else (Ok v, i))).

(** de.rs:111-341 up to the call of the visitor, see [visit_of] *)
Definition x_visit (q : ask) (i : st) : out visit :=
  match q with
  | AChar => andthen (x_char i) (fun z i => (Ok (VsChar z), i))
  | AStr | AString | AIdentifier => andthen (x_string i) (fun bs i => (Ok (VsStr bs), i))
  | ABytes | AByteBuf => andthen (x_bytes i) (fun bs i => (Ok (VsBytes bs), i))
  | _ => keep (visit_of q) i
  end.

(** How an impl ends: with a value, with an error, which may be one that it
    got from the deserializer, or with a panic. *)
Inductive ending (A : Type) := EnGive (a : A) | EnErr (e : error) | EnCrash.
Arguments EnGive {A} a.
Arguments EnErr {A} e.
Arguments EnCrash {A}.
Definition ending_res {A} (r : ending A) : res A :=
  match r with EnGive a => Ok a | EnErr e => Err e | EnCrash => Panic end.

(** A [Deserialize] impl that may look at every [Result] it gets.  A
    deserializer is consumed by the call, so that an impl that catches the error
    of another impl ([CTry]) can only end; the access objects of sequences and
    maps can be used again. *)
Inductive cimpl : Type -> Type :=
| CAsk {A} (q : ask) (on : visit -> cact A) : cimpl A
| CTry {A B} (p : cimpl B) (k : B + error -> ending A) : cimpl A
with cact : Type -> Type :=
| CDone {A} (r : ending A) : cact A
| CMore {A} (p : cimpl A) : cact A
| CNext {A B} (seed : cimpl B) (k : option B + error -> cact A) : cact A
| CValue {A B} (seed : cimpl B) (k : B + error -> cact A) : cact A
| CVariant {A B} (seed : Z -> ending B) (k : B -> cact A) (catch : error -> ending A) : cact A.

(** a caught result *)
Definition catching {A B} (o : out B) (k : B + error -> st -> out A) : out A :=
  match o with
  | (Ok b, i) => k (inl b) i
  | (Err e, i) => k (inr e) i
  | (Panic, i) => (Panic, i)
  | (Fuel, i) => (Fuel, i)
  | (Stuck, i) => (Stuck, i)
  end.
Definition some_or {B} (b : B + error) : option B + error :=
  match b with inl b => inl (Some b) | inr e => inr e end.

(** [c] is the count of the access object: it is decremented before the
    element or key is read (de.rs:361, 387) *)
Fixpoint crun {A} (p : cimpl A) (i : st) : out A :=
  match p in cimpl A return out A with
  | CAsk q on => andthen (x_visit q i) (fun v i => crun_act (on v) (count_of v) i)
  | CTry p k => catching (crun p i) (fun r i => (ending_res (k r), i))
  end
with crun_act {A} (a : cact A) (c : Z) (i : st) : out A :=
  match a in cact A return out A with
  | CDone r => (ending_res r, i)
  | CMore p => crun p i
  | CNext seed k =>
      if c =? 0 then crun_act (k (inl None)) c i
      else catching (crun seed i) (fun r i => crun_act (k (some_or r)) (c - 1) i)
  | CValue seed k => catching (crun seed i) (fun r i => crun_act (k r) c i)
  | CVariant seed k catch =>
      let fail e i := (ending_res (catch e), i) in
      match keep read_i32 i with
      | (Ok z, i) =>
          if z <? 0 then fail EConvert i
          else match ending_res (seed z) with
               | Ok b => crun_act (k b) c i
               | Err e => fail e i
               | _ => (Panic, i)
               end
      | (Err e, i) => fail e i
      | (_, i) => (Panic, i)
      end
  end.

(** de.rs:25-36 *)
Definition from_bytes_catching {A} (p : cimpl A) (value : list byte) : res A :=
  match crun p value with
  | (Ok v, []) => Ok v
  | (Ok v, rest) => Err (ETrailingData (zlen rest))
  | (r, _) => r
  end.
