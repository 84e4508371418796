(** Concrete cases for the theorems about impls that catch errors. *)
From Verif Require Import Base Utf8 RustTypes SerModel SpecTypes DeModel VisitModel SpecVisit VisitProofs CatchModel SpecCatch CatchProofs ExamplesVisit.
Set Implicit Arguments.
Unset Strict Implicit.
Local Open Scope list_scope.

(** [Result]-like wrappers as in serde_with: the value or [None] when it cannot be read *)
Definition or_none {A} (p : cimpl A) : cimpl (option A) :=
  CTry p (fun r => match r with inl a => EnGive (Some a) | inr _ => EnGive None end).
Definition wrong {A} : cact A := CDone (EnErr (ECustom MUser)).
Definition text_c : cimpl (list byte) := CAsk AString (fun v => match v with VsStr s => CDone (EnGive s) | _ => wrong end).
Definition char_c : cimpl Z := CAsk AChar (fun v => match v with VsChar c => CDone (EnGive c) | _ => wrong end).
Definition u32_c : cimpl Z := CAsk (AInt false W32) (fun v => match v with VsInt z => CDone (EnGive z) | _ => wrong end).
Definition pass {A B} (k : option B -> cact A) : option B + error -> cact A := passing k.
Definition two {A B} (p : cimpl A) (q : cimpl B) : cimpl (A * B) :=
  CAsk (ATuple 2) (fun _ => CNext p (pass (fun a => match a with
    | None => wrong
    | Some a => CNext q (pass (fun b => match b with None => wrong | Some b => CDone (EnGive (Datatypes.pair a b)) end))
    end))).
(** [Vec<T>], as many elements as the size hint says *)
Fixpoint elements {A} (p : cimpl A) (n : nat) (acc : list A) : cact (list A) :=
  match n with
  | O => CDone (EnGive (rev acc))
  | Datatypes.S n => CNext p (pass (fun a => match a with None => CDone (EnGive (rev acc)) | Some a => elements p n (a :: acc) end))
  end.
Definition vec {A} (p : cimpl A) : cimpl (list A) :=
  CAsk ASeq (fun v => match v with VsSeq c => elements p (Z.to_nat c) [] | _ => wrong end).
(** a [Vec<T>] that drops the elements that cannot be read: it looks at each result itself *)
Fixpoint dropping {A} (p : cimpl A) (n : nat) (acc : list A) : cact (list A) :=
  match n with
  | O => CDone (EnGive (rev acc))
  | Datatypes.S n => CNext p (fun r => match r with
      | inl None => CDone (EnGive (rev acc))
      | inl (Some a) => dropping p n (a :: acc)
      | inr _ => dropping p n acc
      end)
  end.
Definition vec_dropping {A} (p : cimpl A) : cimpl (list A) :=
  CAsk ASeq (fun v => match v with VsSeq c => dropping p (Z.to_nat c) [] | _ => wrong end).

Lemma elements_calm {A} (p : cimpl A) n acc : ccalm p -> ccalm_act (elements p n acc).
Proof. intros C. revert acc. induction n; intros acc; cbn; [easy|]. split; [exact C|]. intros [[a|]|e]; cbn; [apply IHn|easy|easy]. Qed.
Lemma elements_careful {A} (p : cimpl A) n acc : careful p -> careful_act (elements p n acc).
Proof. intros C. revert acc. induction n; intros acc; cbn; [easy|]. split; [right; split; [exact C|easy]|]. intros [[a|]|e]; cbn; [apply IHn|easy|easy]. Qed.
Lemma dropping_calm {A} (p : cimpl A) n acc : ccalm p -> ccalm_act (dropping p n acc).
Proof. intros C. revert acc. induction n; intros acc; cbn; [easy|]. split; [exact C|]. intros [[a|]|e]; cbn; [apply IHn|easy|apply IHn]. Qed.
Lemma dropping_careful {A} (p : cimpl A) n acc : textless p -> careful_act (dropping p n acc).
Proof. intros C. revert acc. induction n; intros acc; cbn; [easy|]. split; [now left|]. intros [[a|]|e]; cbn; [apply IHn|easy|apply IHn]. Qed.
Lemma dropping_textless {A} (p : cimpl A) n acc : textless p -> textless_act (dropping p n acc).
Proof. intros C. revert acc. induction n; intros acc; cbn; [easy|]. split; [exact C|]. intros [[a|]|e]; cbn; [apply IHn|easy|apply IHn]. Qed.
Lemma text_calm : ccalm text_c.
Proof. now intros []. Qed.
Lemma or_none_calm {A} (p : cimpl A) : ccalm p -> ccalm (or_none p).
Proof. intros C. split; [exact C|]. now intros []. Qed.
Lemma vec_calm {A} (p : cimpl A) : ccalm p -> ccalm (vec p).
Proof. intros C []; cbn; try easy. now apply elements_calm. Qed.
Lemma vec_careful {A} (p : cimpl A) : careful p -> careful (vec p).
Proof. intros C []; cbn; try easy. now apply elements_careful. Qed.
Lemma vec_dropping_calm {A} (p : cimpl A) : ccalm p -> ccalm (vec_dropping p).
Proof. intros C []; cbn; try easy. now apply dropping_calm. Qed.
Lemma vec_dropping_textless {A} (p : cimpl A) : textless p -> textless (vec_dropping p).
Proof. intros C. split; [cbn; intuition discriminate|]. intros []; cbn; try easy. now apply dropping_textless. Qed.
Lemma two_calm {A B} (p : cimpl A) (q : cimpl B) : ccalm p -> ccalm q -> ccalm (two p q).
Proof. intros C D; cbn; intros _; (split; [exact C|]); intros [[a|]|e]; cbn; try easy; (split; [exact D|]); now intros [[b|]|e]. Qed.
Lemma two_careful {A B} (p : cimpl A) (q : cimpl B) : careful p -> careful q -> careful (two p q).
Proof. intros C D; cbn; intros _; (split; [right; split; [exact C|easy]|]); intros [[a|]|e]; cbn; try easy; (split; [right; split; [exact D|easy]|]); now intros [[b|]|e]. Qed.
Lemma two_textless {A B} (p : cimpl A) (q : cimpl B) : textless p -> textless q -> textless (two p q).
Proof. intros C D. split; [cbn; intuition discriminate|]. cbn; intros _; (split; [exact C|]); intros [[a|]|e]; cbn; try easy; (split; [exact D|]); now intros [[b|]|e]. Qed.
Lemma char_textless : textless char_c.
Proof. split; [cbn; intuition discriminate|now intros []]. Qed.
Lemma u32_textless : textless u32_c.
Proof. split; [cbn; intuition discriminate|now intros []]. Qed.
Lemma char_calm : ccalm char_c.
Proof. now intros []. Qed.
Lemma u32_calm : ccalm u32_c.
Proof. now intros []. Qed.

(** two strings, the first is not UTF-8 *)
Definition bad_text : list byte := [x00; x00; x00; x02; x00; x00; x00; x01; xff; x00; x00; x00; x00; x00; x00; x01; x62; x00; x00; x00].
(** the second length is read one to three bytes too early *)
Definition bad_panic : list byte := [x00; x00; x00; x02; x00; x00; x00; x01; xff; x00; x00; x00; x01; x61; x00; x00].

Lemma in_step_false : exists (p : cimpl (list (option (list byte)))) i a u j, ccalm p /\ zlen i mod 4 = 0 /\ i = u ++ j /\
  crun p i = (Ok a, j) /\ zlen u mod 4 <> 0.
Proof.
  exists (vec (or_none text_c)), bad_text, [None; Some []], (firstn 13 bad_text), (skipn 13 bad_text). split; [apply vec_calm, or_none_calm, text_calm|]. split; [reflexivity|]. split; [reflexivity|]. split; [reflexivity|].
  unfold zlen. cbn. lia.
Qed.
Lemma in_step_seen : from_bytes_catching (vec (or_none text_c)) bad_text = Err (ETrailingData 7).
Proof. reflexivity. Qed.
Lemma catch_panics : exists (p : cimpl (list (option (list byte)))) i, ccalm p /\ zlen i mod 4 = 0 /\ from_bytes_catching p i = Panic.
Proof. exists (vec (or_none text_c)), bad_panic. split; [apply vec_calm, or_none_calm, text_calm|]. split; reflexivity. Qed.

(** two chars with a number each; the first is a surrogate *)
Definition bad_pairs : list byte :=
  [x00; x00; x00; x02; x00; x00; xd8; x00; x00; x00; x00; x07; x00; x00; x00; x41; x00; x00; x00; x08].
Definition pair_c : cimpl (Z * Z) := two char_c u32_c.
Lemma next_element_moved : careful (vec (or_none pair_c)) /\ ccalm (vec (or_none pair_c)) /\
  from_bytes_catching (vec (or_none pair_c)) bad_pairs = Err (ETrailingData 4) /\
  crun (vec (or_none pair_c)) bad_pairs = (Ok [None; Some (Datatypes.pair 7 65)], [x00; x00; x00; x08]).
Proof.
  split; [apply vec_careful; change (textless pair_c); apply two_textless; [apply char_textless|apply u32_textless]|].
  split; [apply vec_calm, or_none_calm, two_calm; [apply char_calm|apply u32_calm]|]. split; reflexivity.
Qed.
Lemma next_element_false : exists (p : cimpl (Z * Z)) i, textless p /\ ccalm p /\
  from_bytes_catching (vec p) ([x00; x00; x00; x01] ++ skipn 12 i) = Ok [Datatypes.pair 65 8] /\
  crun (vec (or_none p)) i = (Ok [None; Some (Datatypes.pair 7 65)], [x00; x00; x00; x08]).
Proof.
  exists pair_c, bad_pairs. split; [apply two_textless; [apply char_textless|apply u32_textless]|].
  split; [apply two_calm; [apply char_calm|apply u32_calm]|]. split; reflexivity.
Qed.
(** chars: the element after a caught error is read at its own place *)
Definition bad_chars : list byte := [x00; x00; x00; x03; x00; x00; x00; x41; x00; x00; xd8; x00; x00; x00; x00; x42].
Lemma chars_read : textless (vec_dropping char_c) /\ ccalm (vec_dropping char_c) /\ from_bytes_catching (vec_dropping char_c) bad_chars = Ok [65; 66] /\
  from_bytes_catching (two (vec_dropping char_c) (vec text_c)) (bad_chars ++ [x00; x00; x00; x01; x00; x00; x00; x01; xff; x00; x00; x00]) = Err EEncoding.
Proof.
  split; [apply vec_dropping_textless, char_textless|]. split; [apply vec_dropping_calm, char_calm|]. split; reflexivity.
Qed.
Lemma mixed_careful : careful (two (vec_dropping char_c) (vec text_c)) /\ ccalm (two (vec_dropping char_c) (vec text_c)).
Proof.
  split.
  - apply two_careful; [|apply vec_careful; now intros []]. intros []; cbn; try easy. apply dropping_careful, char_textless.
  - apply two_calm; [apply vec_dropping_calm, char_calm|apply vec_calm, text_calm].
Qed.
Lemma either_lifted : run either_impl sum_bytes = Ok (inl (2 ^ 40 + 7), []) /\ from_bytes_catching (lift either_impl) sum_bytes = Ok (inl (2 ^ 40 + 7)) /\
  from_bytes_catching (lift either_impl) (firstn 18 sum_bytes) = Err (ENotEnoughData 6).
Proof. repeat split; reflexivity. Qed.
