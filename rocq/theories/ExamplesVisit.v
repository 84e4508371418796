(** Concrete cases for the theorems about arbitrary impls. *)
From Verif Require Import Base SpecUtf8 RustTypes SerModel DeModel SpecXdr SpecTypes SpecMisc VisitModel VisitTypes SpecVisit VisitProofs VisitAgree VisitLoop ExamplesCodec.
Set Implicit Arguments.
Unset Strict Implicit.
Local Open Scope list_scope.

(** A hand-written impl that no type of RustTypes.v has: a tuple of a bool and,
    depending on it, a map with u64 values or the first element of a sequence
    of strings. *)
Definition bool_impl : impl bool := Ask ABool (fun v => match v with VsBool b => give b | _ => bad end).
Definition long_impl : impl Z := Ask (AInt false W64) (fun v => match v with VsInt z => give z | _ => bad end).
Definition text_impl : impl (list byte) := Ask AStr (fun v => match v with VsStr s => give s | _ => Done (Fail MUser) end).
Definition sum_impl : impl Z :=
  Ask AMap (fun v => match v with
    | VsMap c => Next text_impl (fun o => match o with None => give 0 | Some _ => Value long_impl (fun a =>
        Next text_impl (fun o => match o with None => give a | Some _ => Value long_impl (fun b => give (a + b)) end)) end)
    | _ => bad end).
Definition head_impl : impl (list byte) :=
  Ask ASeq (fun _ => Next text_impl (fun o => match o with None => Done (Fail MUser) | Some s => give s end)).
Definition either_impl : impl (Z + list byte) :=
  Ask (ATuple 2) (fun _ => Next bool_impl (fun o => match o with
    | None => Done (Fail MUser)
    | Some true => Next sum_impl (fun o => match o with Some z => give (inl z) | None => Done (Fail MUser) end)
    | Some false => Next head_impl (fun o => match o with Some s => give (inr s) | None => Done (Fail MUser) end)
    end)).

(** what two hand-written [Serialize] impls call *)
Definition sum_calls : sval := STuple [SBool true; SMap (Some 2) [(SStr [x62; x63], SU64 7); (SStr [], SU64 (2 ^ 40))]].
Definition head_calls : sval := STupleStruct [SBool false; SNewtypeStruct (SSeq (Some 1) [SStr [x62; x63]])].
Definition sum_bytes : list byte :=
  [x00; x00; x00; x01; x00; x00; x00; x02; x00; x00; x00; x02; x62; x63; x00; x00; x00; x00; x00; x00; x00; x00; x00; x07;
   x00; x00; x00; x00; x00; x00; x01; x00; x00; x00; x00; x00].
Definition head_bytes : list byte := [x00; x00; x00; x00; x00; x00; x00; x01; x00; x00; x00; x02; x62; x63; x00; x00].

Lemma sum_written : to_bytes_calls sum_calls = Ok sum_bytes.
Proof. reflexivity. Qed.
Lemma head_written : to_bytes_calls head_calls = Ok head_bytes.
Proof. reflexivity. Qed.
Lemma sum_ok : Forall tok_ok (tokens sum_calls) /\ Forall tok_ok (tokens head_calls).
Proof. split; cbn; repeat (apply Forall_cons || apply Forall_nil); cbn; repeat split; try lia; try exact valid_ab; exact valid_nil. Qed.
Lemma sum_heard : hear either_impl (tokens sum_calls) = Some (inl (2 ^ 40 + 7), []) /\ hear either_impl (tokens head_calls) = Some (inr [x62; x63], []).
Proof. split; reflexivity. Qed.
(** asked for another kind *)
Lemma sum_not_heard : hear head_impl (tokens sum_calls) = None.
Proof. reflexivity. Qed.
Lemma sum_reads : run either_impl (sum_bytes ++ [x01; x02]) = Ok (inl (2 ^ 40 + 7), [x01; x02]) /\ from_bytes_with either_impl head_bytes = Ok (inr [x62; x63]).
Proof. split; reflexivity. Qed.

Ltac calmly := repeat first [split | progress cbn [calm calm_act] | intros; discriminate |
  match goal with
  | |- forall v : visit, _ => intros v; destruct v
  | |- forall o : option _, _ => let x := fresh in intros [x|]
  | |- forall b : bool, _ => intros b; destruct b
  | |- forall z, _ => intros ?
  | |- context [match ?x with _ => _ end] => destruct x
  end].
Lemma either_calm : calm either_impl.
Proof. unfold either_impl, sum_impl, head_impl, text_impl, long_impl, bool_impl. calmly. Qed.
Lemma either_whole : zlen (firstn 20 sum_bytes) mod 4 = 0 /\ from_bytes_with either_impl (firstn 20 sum_bytes) = Err (ENotEnoughData 4).
Proof. split; reflexivity. Qed.
(** the impl of an XdrIndexer type with a panicking table is not calm *)
Definition panicking : ty := TSigned32 [0] [(0, 0%nat)] DPanic.
Lemma panicking_crashes : from_bytes_with (impl_of 2 [] panicking) [x00; x00; x00; x05] = Panic /\ ~ calm (impl_of 2 [] panicking).
Proof. split; [reflexivity|]. intros C. exact (C (VsInt 5) eq_refl). Qed.

(** errors *)
Lemma either_errors : from_bytes_with either_impl (firstn 18 sum_bytes) = Err (ENotEnoughData 6) /\
  from_bytes_with either_impl (head_bytes ++ [x09]) = Err (ETrailingData 1) /\
  from_bytes_with either_impl (firstn 12 head_bytes ++ [xff; xff; x00; x00]) = Err EEncoding.
Proof. repeat split; reflexivity. Qed.

(** the type of a struct is an instance *)
Lemma instance_reads : from_bytes_with (impl_of 3 [] (TStruct [("x"%string, TStr); ("y"%string, TMap TBool TChar)]))
  [x00; x00; x00; x02; x62; x63; x00; x00; x00; x00; x00; x01; x00; x00; x00; x01; x00; x00; x00; x41] = Ok (RSeq [RStr [x62; x63]; RMap [(RBool true, RChar 65)]]).
Proof. reflexivity. Qed.
