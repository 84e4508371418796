(** Specifications about [Deserialize] impls that catch errors (C100). *)
From Verif Require Import Base SerModel RustTypes VisitModel CatchModel.

(** no panic of its own *)
Definition unbroken {A} (r : ending A) : Prop := r <> EnCrash.
Fixpoint ccalm {A} (p : cimpl A) : Prop :=
  match p with
  | CAsk q on => forall v, ccalm_act (on v)
  | CTry p k => ccalm p /\ forall r, unbroken (k r)
  end
with ccalm_act {A} (a : cact A) : Prop :=
  match a with
  | CDone r => unbroken r
  | CMore p => ccalm p
  | CNext seed k => ccalm seed /\ forall r, ccalm_act (k r)
  | CValue seed k => ccalm seed /\ forall r, ccalm_act (k r)
  | CVariant seed k catch => (forall z, unbroken (seed z)) /\ (forall b, ccalm_act (k b)) /\ forall e, unbroken (catch e)
  end.

(** asks for no text *)
Definition text_ask (q : ask) : Prop := In q [AStr; AString; AIdentifier].
Fixpoint textless {A} (p : cimpl A) : Prop :=
  match p with
  | CAsk q on => ~ text_ask q /\ forall v, textless_act (on v)
  | CTry p k => textless p
  end
with textless_act {A} (a : cact A) : Prop :=
  match a with
  | CDone r => True
  | CMore p => textless p
  | CNext seed k => textless seed /\ forall r, textless_act (k r)
  | CValue seed k => textless seed /\ forall r, textless_act (k r)
  | CVariant seed k catch => forall b, textless_act (k b)
  end.

(** catches errors only where no text is asked for; elsewhere it passes them on *)
Definition passes {A B} (k : B + error -> cact A) : Prop := forall e, k (inr e) = CDone (EnErr e).
Fixpoint careful {A} (p : cimpl A) : Prop :=
  match p with
  | CAsk q on => forall v, careful_act (on v)
  | CTry p k => textless p
  end
with careful_act {A} (a : cact A) : Prop :=
  match a with
  | CDone r => True
  | CMore p => careful p
  | CNext seed k => (textless seed \/ careful seed /\ passes k) /\ forall r, careful_act (k r)
  | CValue seed k => (textless seed \/ careful seed /\ passes k) /\ forall r, careful_act (k r)
  | CVariant seed k catch => forall b, careful_act (k b)
  end.

(** an impl that catches nothing; [Bound] and [Ill] are no behaviours of an impl
    (VisitModel.v) *)
Definition pass_ending {A} (r : result A) : ending A :=
  match r with Give a => EnGive a | Fail m => EnErr (ECustom m) | _ => EnCrash end.
Definition passing {A B} (k : B -> cact A) (r : B + error) : cact A :=
  match r with inl b => k b | inr e => CDone (EnErr e) end.
Fixpoint lift {A} (p : impl A) : cimpl A :=
  match p in impl A return cimpl A with
  | Ask q on => CAsk q (fun v => lift_act (on v))
  end
with lift_act {A} (a : act A) : cact A :=
  match a in act A return cact A with
  | Done r => CDone (pass_ending r)
  | More p => CMore (lift p)
  | Next seed k => CNext (lift seed) (passing (fun o => lift_act (k o)))
  | Value seed k => CValue (lift seed) (passing (fun b => lift_act (k b)))
  | Variant seed k => CVariant (fun z => pass_ending (seed z)) (fun b => lift_act (k b)) EnErr
  end.
