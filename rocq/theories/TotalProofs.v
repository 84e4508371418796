(** Totality of the serializer (faults), of the deserializer (fuel, panics), and
    normalisation. *)
From Verif Require Import Base SpecUtf8 SerModel RustTypes DeModel SpecXdr SpecTypes SpecDecode
  SpecMisc XdrFacts EncProofs ReadFacts RvalFacts DecProofs CodecProofs.
Set Implicit Arguments.

(** ** Induction over call trees *)
Section SvalInd.
  Context (P : sval -> Prop)
    (Hleaf : forall s, match s with
       | SSome _ | SNewtypeStruct _ | SNewtypeVariant _ _ | SSeq _ _ | STuple _
       | STupleStruct _ | STupleVariant _ _ | SMap _ _ | SStruct _ | SStructVariant _ _ => True
       | _ => P s end)
    (Hsome : forall s, P s -> P (SSome s))
    (Hnew : forall s, P s -> P (SNewtypeStruct s))
    (Hnewv : forall i s, P s -> P (SNewtypeVariant i s))
    (Hseq : forall o l, Forall P l -> P (SSeq o l))
    (Htup : forall l, Forall P l -> P (STuple l))
    (Htups : forall l, Forall P l -> P (STupleStruct l))
    (Htupv : forall i l, Forall P l -> P (STupleVariant i l))
    (Hmap : forall o l, Forall (fun kv => P (fst kv) /\ P (snd kv)) l -> P (SMap o l))
    (Hstruct : forall l, Forall P l -> P (SStruct l))
    (Hstructv : forall i l, Forall P l -> P (SStructVariant i l)).

  Fixpoint sval_ind' (s : sval) : P s :=
    let all := fix all (vs : list sval) : Forall P vs :=
      match vs with
      | [] => Forall_nil _
      | v :: t => Forall_cons _ (sval_ind' v) (all t)
      end in
    match s with
    | SSome s => Hsome (sval_ind' s)
    | SNewtypeStruct s => Hnew (sval_ind' s)
    | SNewtypeVariant i s => Hnewv i (sval_ind' s)
    | SSeq o l => Hseq o (all l)
    | STuple l => Htup (all l)
    | STupleStruct l => Htups (all l)
    | STupleVariant i l => Htupv i (all l)
    | SMap o l =>
        Hmap o ((fix go (l : list (sval * sval)) : Forall (fun kv => P (fst kv) /\ P (snd kv)) l :=
                 match l with
                 | [] => Forall_nil _
                 | (k, v) :: t => Forall_cons (k, v) (conj (sval_ind' k) (sval_ind' v)) (go t)
                 end) l)
    | SStruct l => Hstruct (all l)
    | SStructVariant i l => Hstructv i (all l)
    | s => Hleaf s
    end.
End SvalInd.

(** What a run of the serializer does, whatever was written before: append a
    fixed multiple-of-4 block, or report the first fault. *)
Definition behaves (r : list byte -> res (list byte)) (fs : list fault) : Prop :=
  match fs with
  | [] => exists b, zlen b mod 4 = 0 /\ forall o, r o = Ok (o ++ b)
  | f :: _ => forall o, r o = fault_result f
  end.

Lemma behaves_bind r1 r2 f1 f2 : behaves r1 f1 -> behaves r2 f2 ->
  behaves (fun o => o1 <- r1 o;; r2 o1) (f1 ++ f2).
Proof.
  intros H1 H2. destruct f1 as [|f f1]; cbn in *.
  - destruct H1 as (b1 & A1 & H1). destruct f2 as [|f f2]; cbn in *.
    + destruct H2 as (b2 & A2 & H2). exists (b1 ++ b2). split.
      * rewrite zlen_app. lia.
      * intros o. rewrite H1. cbn. rewrite H2. now rewrite app_assoc.
    + intros o. rewrite H1. cbn. apply H2.
  - intros o. rewrite H1. destruct f; reflexivity.
Qed.

Lemma behaves_ext r1 r2 fs : (forall o, r1 o = r2 o) -> behaves r1 fs -> behaves r2 fs.
Proof.
  intros E H. destruct fs as [|f fs]; cbn in *.
  - destruct H as (b & A & H). exists b. split; [exact A|]. intros o. now rewrite <- E.
  - intros o. now rewrite <- E.
Qed.

Lemma behaves_fold {A} (g : A -> list byte -> res (list byte)) (fs : A -> list fault) l :
  Forall (fun a => behaves (g a) (fs a)) l -> behaves (foldM g l) (flat_map fs l).
Proof.
  induction 1 as [|a l Ha _ IH]; cbn.
  - exists []. split; [reflexivity|]. intros o. now rewrite app_nil_r.
  - eapply behaves_ext; [|apply behaves_bind; [exact Ha|exact IH]]. reflexivity.
Qed.

Lemma behaves_word k z : (Z.of_nat k) mod 4 = 0 -> behaves (fun o => Ok (o ++ be_bytes k z)) [].
Proof.
  intros H. exists (be_bytes k z). split; [|reflexivity].
  unfold zlen. now rewrite be_bytes_length.
Qed.

Lemma behaves_variant i :
  behaves (serialize_variant_index i) (if i <? 2 ^ 31 then [] else [BigVariant]).
Proof.
  unfold serialize_variant_index. destruct (i <? 2 ^ 31); [apply behaves_word; reflexivity|].
  intros o. reflexivity.
Qed.

Lemma behaves_len o :
  behaves (serialize_len o) (match o with Some _ => [] | None => [UnknownLength] end).
Proof. destruct o; [apply behaves_word; reflexivity|intros x; reflexivity]. Qed.

Lemma behaves_bytes bs : behaves (serialize_bytes bs) [].
Proof.
  unfold serialize_bytes, serialize_u32. cbn [bind].
  set (m := (- zlen bs) mod 4).
  exists (be_bytes 4 (wrap_u 32 (zlen bs)) ++ bs ++ repeat x00 (Z.to_nat m)). split.
  - rewrite !zlen_app. unfold m, zlen. rewrite be_bytes_length, repeat_length. lia.
  - intros o. f_equal. pose proof (zlen_nonneg bs).
    destruct (Z.ltb_spec (4 - zlen bs mod 4) 4).
    + replace (4 - zlen bs mod 4) with m by lia. now rewrite <- !app_assoc.
    + replace m with 0 by lia. cbn. now rewrite app_nil_r, <- app_assoc.
Qed.

Lemma serialize_behaves s : behaves (serialize s) (faults s).
Proof.
  apply sval_ind' with (P := fun s => behaves (serialize s) (faults s)); clear s.
  - intros s; destruct s; try exact I; cbn [serialize faults];
      try (apply behaves_word; reflexivity);
      try (intros o; reflexivity);
      try apply behaves_bytes; try apply behaves_variant;
      try (exists []; split; [reflexivity|intros o; now rewrite app_nil_r]).
  - intros s IH.
    eapply behaves_ext with (r1 := fun o => o1 <- serialize_u32 1 o;; serialize s o1); [reflexivity|].
    change (faults (SSome s)) with ([] ++ faults s). apply behaves_bind; [|assumption].
    apply behaves_word; reflexivity.
  - intros s IH. exact IH.
  - intros i s IH.
    apply behaves_bind with (r1 := serialize_variant_index i); [apply behaves_variant|assumption].
  - intros o l H. apply behaves_bind with (r1 := serialize_len o); [apply behaves_len|].
    now apply behaves_fold.
  - intros l H. now apply behaves_fold.
  - intros l H. now apply behaves_fold.
  - intros i l H.
    apply behaves_bind with (r1 := serialize_variant_index i); [apply behaves_variant|].
    now apply behaves_fold.
  - intros o l H. apply behaves_bind with (r1 := serialize_len o); [apply behaves_len|].
    apply behaves_fold. eapply Forall_impl; [|exact H].
    intros [k v] [Hk Hv]. now apply behaves_bind with (r1 := serialize k).
  - intros l H. now apply behaves_fold.
  - intros i l H.
    apply behaves_bind with (r1 := serialize_variant_index i); [apply behaves_variant|].
    now apply behaves_fold.
Qed.

(** ** More fuel does not change a result *)

Definition mono {A} (p q : parser A) : Prop := forall i, p i <> Fuel -> q i = p i.

Lemma bind_mono {A B} (r r' : res A) (f g : A -> res B) :
  (r <> Fuel -> r' = r) -> (forall a, f a <> Fuel -> g a = f a) ->
  bind r f <> Fuel -> bind r' g = bind r f.
Proof.
  intros Hr Hf H. destruct r as [a|e| | |]; cbn in *; [| | |now contradiction H|];
    (rewrite Hr by discriminate); cbn; auto.
Qed.

Lemma read_seq_mono {A} (ps qs : list (parser A)) : Forall2 mono ps qs -> mono (read_seq ps) (read_seq qs).
Proof.
  induction 1 as [|p q ps qs Hp _ IH]; intros i H; [reflexivity|]. cbn [read_seq] in *.
  apply bind_mono; auto. intros [a j] Ha. apply bind_mono; auto.
Qed.

Lemma next_element_mono {A} (p q : parser A) : mono p q ->
  forall s, next_element p s <> Fuel -> next_element q s = next_element p s.
Proof.
  intros M [c i] H. unfold next_element in *. destruct (c =? 0); [reflexivity|].
  apply bind_mono; auto.
Qed.

Lemma visit_fields_mono {A} (ps qs : list (parser A)) : Forall2 mono ps qs ->
  forall pos s, visit_fields ps pos s <> Fuel -> visit_fields qs pos s = visit_fields ps pos s.
Proof.
  induction 1 as [|p q ps qs Hp _ IH]; intros pos s H; [reflexivity|]. cbn [visit_fields] in *.
  apply bind_mono; auto using next_element_mono. intros [[a|] j] Ha; [|reflexivity].
  apply bind_mono; auto.
Qed.

Lemma visit_fields_unwrap_mono {A} (ps qs : list (parser A)) : Forall2 mono ps qs ->
  forall s, visit_fields_unwrap ps s <> Fuel -> visit_fields_unwrap qs s = visit_fields_unwrap ps s.
Proof.
  induction 1 as [|p q ps qs Hp _ IH]; intros s H; [reflexivity|]. cbn [visit_fields_unwrap] in *.
  apply bind_mono; auto using next_element_mono. intros [[a|] j] Ha; [|reflexivity].
  apply bind_mono; auto.
Qed.

Lemma forall2_repeat {A} (P : A -> A -> Prop) a b k : P a b -> Forall2 P (repeat a k) (repeat b k).
Proof. intros H. induction k; cbn; constructor; auto. Qed.

Lemma forall2_map {A B} (P : B -> B -> Prop) (f g : A -> B) l : (forall a, P (f a) (g a)) ->
  Forall2 P (map f l) (map g l).
Proof. intros H. induction l; cbn; constructor; auto. Qed.

Lemma visit_vec_mono {A} (p q : parser A) z i : mono p q -> 0 <= z ->
  visit_vec p (z, i) <> Fuel -> visit_vec q (z, i) = visit_vec p (z, i).
Proof.
  intros M Hz. replace z with (Z.of_nat (Z.to_nat z)) by lia. rewrite !visit_vec_seq.
  apply read_seq_mono, forall2_repeat, M.
Qed.

Lemma deser_mono1 n E : forall t, mono (deser n E t) (deser (S n) E t).
Proof.
  induction n as [|n IH]; intros t i H; [now contradiction H|].
  assert (IHf : forall ts, Forall2 mono (map (deser n E) ts) (map (deser (S n) E) ts))
    by (intros; now apply forall2_map).
  assert (IHg : forall ts : list (string * ty),
            Forall2 mono (map (fun f => deser n E (snd f)) ts)
                         (map (fun f => deser (S n) E (snd f)) ts))
    by (intros; now apply forall2_map).
  remember (S n) as m eqn:Em.
  destruct t; rewrite Em in H |- * at 2; cbn [deser] in H |- *; try reflexivity.
  all: try apply IH; try assumption.
  - (* option *)
    apply bind_mono; auto. intros [z j] Hz. destruct (z =? 0); [reflexivity|].
    apply bind_mono; auto. apply IH.
  - (* seq *)
    destruct (read_u32 i) as [[z j]| | | |] eqn:Er; try reflexivity. cbn [bind] in *.
    apply read_u32_inv in Er as (w & -> & U). pose proof (unsigned_range U).
    apply bind_mono; auto. apply visit_vec_mono; [apply IH|lia].
  - apply bind_mono; auto. apply visit_fields_mono. apply forall2_repeat, IH.
  - apply bind_mono; auto. apply visit_fields_mono; auto.
  - apply bind_mono; auto. apply visit_fields_mono; auto.
  - apply bind_mono; auto. apply visit_fields_mono; auto.
  - (* map *)
    destruct (read_u32 i) as [[z j]| | | |] eqn:Er; try reflexivity. cbn [bind] in *.
    apply read_u32_inv in Er as (w & -> & U). pose proof (unsigned_range U).
    apply bind_mono; auto. unfold visit_map. intros Hm. apply bind_mono; auto.
    apply visit_vec_mono; [|lia]. intros x Hx. apply bind_mono; auto; [apply IH|].
    intros [k y] Hy. apply bind_mono; auto. apply IH.
  - (* enum *)
    apply bind_mono; auto. intros [k j] Hk.
    destruct (nth_error vs k) as [[name [|t|ts|ts]]|]; try reflexivity.
    + apply bind_mono; auto. apply IH.
    + apply bind_mono; auto. apply visit_fields_mono; auto.
    + apply bind_mono; auto. apply visit_fields_mono; auto.
  - (* indexer *)
    apply bind_mono; auto. intros [[z|] s] Hs; [|reflexivity].
    destruct (with_dflt (assoc Z.eqb z names) d) as [name| |]; try reflexivity.
    destruct (find_variant name vs 0) as [[k ts]|]; [|reflexivity].
    apply bind_mono; auto. apply visit_fields_unwrap_mono; auto.
  - (* union *)
    apply bind_mono; auto; [apply next_element_mono, IH|]. intros [[v|] s] Hs; [|reflexivity].
    destruct (with_dflt (assoc rval_eqb v names) d) as [name| |]; try reflexivity.
    destruct (find_variant name vs 0) as [[k [ts|]]|]; try reflexivity.
    apply bind_mono; auto. apply visit_fields_unwrap_mono; auto.
  - destruct (lookup E name); [|reflexivity]. apply IH; assumption.
Qed.

Lemma deser_mono n m E t i : (n <= m)%nat -> deser n E t i <> Fuel ->
  deser m E t i = deser n E t i.
Proof.
  induction 1 as [|m _ IH]; intros H; [reflexivity|].
  rewrite <- (IH H). apply deser_mono1. now rewrite IH.
Qed.

Lemma from_bytes_mono n m E t i : (n <= m)%nat -> from_bytes n E t i <> Fuel ->
  from_bytes m E t i = from_bytes n E t i.
Proof.
  intros L. unfold from_bytes. apply bind_mono; auto. now apply deser_mono.
Qed.

(** ** Termination *)

Lemma bind_nofuel {A B} (r : res A) (f : A -> res B) :
  r <> Fuel -> (forall a, r = Ok a -> f a <> Fuel) -> bind r f <> Fuel.
Proof. intros H1 H2. destruct r; cbn; auto; discriminate. Qed.

(** reading never makes the input longer *)
Lemma deser_shorter n E t i v r : deser n E t i = Ok (v, r) -> zlen r <= zlen i.
Proof.
  intros H. apply deser_accepts in H as (c & -> & _). rewrite zlen_app.
  pose proof (zlen_nonneg c). lia.
Qed.

Lemma read_nofuel k i : read k i <> Fuel.
Proof. unfold read. destruct (zlen i <? k); discriminate. Qed.

Lemma read_u32_nofuel i : read_u32 i <> Fuel.
Proof. apply bind_nofuel; [apply read_nofuel|]. intros [? ?]; discriminate. Qed.
Lemma read_i32_nofuel i : read_i32 i <> Fuel.
Proof. apply bind_nofuel; [apply read_nofuel|]. intros [? ?]; discriminate. Qed.
Lemma read_u64_nofuel i : read_u64 i <> Fuel.
Proof. apply bind_nofuel; [apply read_nofuel|]. intros [? ?]; discriminate. Qed.
Lemma read_i64_nofuel i : read_i64 i <> Fuel.
Proof. apply bind_nofuel; [apply read_nofuel|]. intros [? ?]; discriminate. Qed.
Lemma slice_nofuel n i : slice_from n i <> Fuel.
Proof. unfold slice_from. destruct (zlen i <? n); discriminate. Qed.

Lemma de_int_nofuel s w i : de_int s w i <> Fuel.
Proof.
  destruct s, w; unfold de_int; try discriminate; auto using read_u32_nofuel, read_i32_nofuel,
    read_u64_nofuel, read_i64_nofuel;
  (apply bind_nofuel; [auto using read_u32_nofuel, read_i32_nofuel|]; intros [? ?]; discriminate).
Qed.

Lemma read_string_nofuel i : read_string i <> Fuel.
Proof.
  apply bind_nofuel; [apply read_u32_nofuel|]. intros [z j] _.
  apply bind_nofuel; [apply read_nofuel|]. intros [v k] _.
  destruct (Utf8.utf8_ok v); [|discriminate]. destruct (4 - z mod 4 <? 4); [|discriminate].
  apply bind_nofuel; [apply slice_nofuel|discriminate].
Qed.

Lemma read_bytes_nofuel i : read_bytes i <> Fuel.
Proof.
  apply bind_nofuel; [apply read_u32_nofuel|]. intros [z j] _.
  apply bind_nofuel; [apply read_nofuel|]. intros [v k] _.
  destruct (4 - z mod 4 <? 4); [|discriminate].
  apply bind_nofuel; [apply slice_nofuel|discriminate].
Qed.

Lemma de_variant_index_nofuel k i : de_variant_index k i <> Fuel.
Proof.
  apply bind_nofuel; [apply read_i32_nofuel|]. intros [z j] _.
  destruct (z <? 0); [discriminate|]. destruct (z <? Z.of_nat k); discriminate.
Qed.

Section NoFuel.
  (** parsers that are fine on inputs of at most [L] bytes and never lengthen *)
  Context {A : Type} (L : Z).
  Definition short (p : parser A) : Prop :=
    forall i, zlen i <= L -> p i <> Fuel /\ forall a r, p i = Ok (a, r) -> zlen r <= zlen i.

  Lemma read_seq_nofuel (ps : list (parser A)) i : Forall short ps -> zlen i <= L -> read_seq ps i <> Fuel.
  Proof.
    intros H. revert i. induction H as [|p ps Hp _ IH]; intros i Hi; cbn [read_seq]; [discriminate|].
    destruct (Hp i Hi) as [N S]. apply bind_nofuel; [exact N|]. intros [a j] E.
    apply S in E. apply bind_nofuel; [apply IH; lia|]. intros [? ?] _; discriminate.
  Qed.

  Lemma visit_fields_nofuel (ps : list (parser A)) pos c i : Forall short ps -> zlen i <= L ->
    visit_fields ps pos (c, i) <> Fuel.
  Proof.
    intros H. revert pos c i. induction H as [|p ps Hp _ IH]; intros pos c i Hi;
      cbn [visit_fields]; [discriminate|].
    destruct (Hp i Hi) as [N S]. unfold next_element. destruct (c =? 0); [discriminate|].
    destruct (p i) as [[a j]| | | |]; try discriminate; [|contradiction]. cbn [bind].
    specialize (S a j eq_refl). apply bind_nofuel; [apply IH; lia|]. intros [? ?] _; discriminate.
  Qed.

  Lemma visit_fields_unwrap_nofuel (ps : list (parser A)) c i : Forall short ps -> zlen i <= L ->
    visit_fields_unwrap ps (c, i) <> Fuel.
  Proof.
    intros H. revert c i. induction H as [|p ps Hp _ IH]; intros c i Hi;
      cbn [visit_fields_unwrap]; [discriminate|].
    destruct (Hp i Hi) as [N S]. unfold next_element. destruct (c =? 0); [discriminate|].
    destruct (p i) as [[a j]| | | |]; try discriminate; [|contradiction]. cbn [bind].
    specialize (S a j eq_refl). apply bind_nofuel; [apply IH; lia|]. intros [? ?] _; discriminate.
  Qed.
End NoFuel.

(** fuel needed for an input of [len] bytes *)
Definition need (d d' : nat) (strict : bool) (len : Z) : nat :=
  (d' + (Z.to_nat (len / 4) + if strict then 0 else 1) * S d)%nat.

Lemma need_mono d d1 d2 s len1 len2 : (d1 <= d2)%nat -> 0 <= len1 <= len2 ->
  (need d d1 s len1 <= need d d2 s len2)%nat.
Proof.
  intros H1 H2. unfold need.
  apply Nat.add_le_mono; [exact H1|]. apply Nat.mul_le_mono_r. lia.
Qed.

Lemma need_unit d d' len1 len2 s : 0 <= len1 -> len1 + 4 <= len2 ->
  (need d d' false len1 <= need d d' s len2)%nat.
Proof.
  intros H1 H2. unfold need.
  apply Nat.add_le_mono_l, Nat.mul_le_mono_r. destruct s; lia.
Qed.

Lemma deser_nofuel d E (GE : env_guarded d E) : forall n d' s t i,
  guarded d' E s t = true -> (need d d' s (zlen i) <= n)%nat -> deser n E t i <> Fuel.
Proof.
  induction n as [|n IH]; intros d' s t i G N.
  { destruct d'; [discriminate|]. unfold need in N. lia. }
  destruct d' as [|d']; [discriminate|].
  pose proof (zlen_nonneg i) as Zi.
  assert (N' : (need d d' s (zlen i) <= n)%nat) by (unfold need in *; lia).
  assert (Hsame : forall t, guarded d' E s t = true -> short (zlen i) (deser n E t)).
  { intros t' G' j Hj. pose proof (zlen_nonneg j). split.
    - apply (IH d' s); [exact G'|]. eapply Nat.le_trans; [|exact N']. apply need_mono; lia.
    - intros a r. apply deser_shorter. }
  assert (Hless : forall t (j : st), guarded d' E false t = true -> zlen j + 4 <= zlen i ->
            short (zlen j) (deser n E t)).
  { intros t' j G' Hj k Hk. pose proof (zlen_nonneg j). pose proof (zlen_nonneg k). split.
    - apply (IH d' false); [exact G'|]. eapply Nat.le_trans; [|exact N'].
      apply need_unit; lia.
    - intros a r. apply deser_shorter. }
  assert (Hsames : forall ts, forallb (guarded d' E s) ts = true ->
            Forall (short (zlen i)) (map (deser n E) ts)).
  { intros ts F. apply Forall_forall. intros p Hp. apply in_map_iff in Hp as (t' & <- & I).
    rewrite forallb_forall in F. auto. }
  assert (Hlesss : forall ts (j : st), forallb (guarded d' E false) ts = true -> zlen j + 4 <= zlen i ->
            Forall (short (zlen j)) (map (deser n E) ts)).
  { intros ts j F Hj. apply Forall_forall. intros p Hp. apply in_map_iff in Hp as (t' & <- & I).
    rewrite forallb_forall in F. auto. }
  assert (Word : forall j r z, read_u32 j = Ok (z, r) -> zlen r + 4 <= zlen j /\ 0 <= z).
  { intros j r z Hr. apply read_u32_inv in Hr as (w & -> & U). pose proof (unsigned_range U).
    destruct U as [L _]. rewrite zlen_app. unfold zlen in *. lia. }
  assert (IWord : forall j r z, read_i32 j = Ok (z, r) -> zlen r + 4 <= zlen j).
  { intros j r z Hr. apply read_i32_inv in Hr as (w & -> & U).
    destruct U as [L _]. rewrite zlen_app. unfold zlen in *. lia. }
  destruct t; cbn [guarded] in G; cbn [deser];
    try discriminate;
    try (apply bind_nofuel; [|intros [? ?] _; discriminate];
         auto using read_u32_nofuel, read_u64_nofuel, de_int_nofuel, read_string_nofuel, read_bytes_nofuel).
  - (* char *)
    apply bind_nofuel; [apply read_u32_nofuel|]. intros [z j] _.
    destruct (Utf8.char_ok z); discriminate.
  - (* option *)
    apply bind_nofuel; [apply read_u32_nofuel|]. intros [z j] Hr. apply Word in Hr as [Hj _].
    destruct (z =? 0); [discriminate|]. apply bind_nofuel; [|intros [? ?] _; discriminate].
    apply (Hless t j G Hj). lia.
  - apply (Hsame t G). lia.
  - apply (Hsame t G). lia.
  - (* seq *)
    apply bind_nofuel; [apply read_u32_nofuel|]. intros [z j] Hr. apply Word in Hr as [Hj Hz].
    apply bind_nofuel; [|intros [? ?] _; discriminate].
    replace z with (Z.of_nat (Z.to_nat z)) by lia. rewrite visit_vec_seq.
    apply read_seq_nofuel with (L := zlen j); [|lia].
    apply Forall_forall. intros p Hp. apply repeat_spec in Hp. subst p. apply Hless; assumption.
  - (* array *)
    apply visit_fields_nofuel with (L := zlen i); [|lia].
    apply Forall_forall. intros p Hp. apply repeat_spec in Hp. subst p. apply Hsame; assumption.
  - apply visit_fields_nofuel with (L := zlen i); [apply Hsames; assumption|lia].
  - apply visit_fields_nofuel with (L := zlen i); [apply Hsames; assumption|lia].
  - apply visit_fields_nofuel with (L := zlen i); [|lia].
    rewrite <- (map_map snd (deser n E)). apply Hsames.
    rewrite forallb_forall in G |- *. intros t' I. apply in_map_iff in I as (f & <- & I). auto.
  - (* map *)
    apply andb_true_iff in G as [G1 G2].
    apply bind_nofuel; [apply read_u32_nofuel|]. intros [z j] Hr. apply Word in Hr as [Hj Hz].
    apply bind_nofuel; [|intros [? ?] _; discriminate].
    replace z with (Z.of_nat (Z.to_nat z)) by lia. rewrite visit_map_seq.
    apply bind_nofuel; [|intros [? ?] _; discriminate].
    apply read_seq_nofuel with (L := zlen j); [|lia].
    apply Forall_forall. intros p Hp. apply repeat_spec in Hp. subst p.
    intros x Hx. pose proof (Hless _ _ G1 Hj) as S1. pose proof (Hless _ _ G2 Hj) as S2.
    destruct (S1 x Hx) as [F1 R1]. split.
    + apply bind_nofuel; [exact F1|]. intros [k y] Ey. apply R1 in Ey.
      apply bind_nofuel; [apply S2; lia|]. intros [? ?] _; discriminate.
    + intros [k v] r Hkv. apply bind_ok in Hkv as ([k' y] & H1 & H2).
      apply bind_ok in H2 as ([v' y'] & H2 & H3). injection H3 as -> -> ->.
      apply deser_shorter in H1, H2. lia.
  - (* enum *)
    apply bind_nofuel; [apply de_variant_index_nofuel|]. intros [k j] Hk.
    apply de_variant_index_inv in Hk as (w & -> & U & _).
    assert (Hj : zlen j + 4 <= zlen (w ++ j)).
    { rewrite zlen_app. destruct U as [L _]. unfold zlen. lia. }
    destruct (nth_error vs k) as [[name sh]|] eqn:Hn; [|discriminate].
    apply nth_error_In in Hn. rewrite forallb_forall in G. specialize (G _ Hn). cbn in G.
    destruct sh as [|t|ts|ts]; try discriminate;
      (apply bind_nofuel; [|intros [? ?] _; discriminate]).
    + apply (Hless t j G Hj). lia.
    + apply visit_fields_nofuel with (L := zlen j); [apply Hlesss; assumption|lia].
    + apply visit_fields_nofuel with (L := zlen j); [|lia].
      rewrite <- (map_map snd (deser n E)). apply Hlesss; [|assumption].
      rewrite forallb_forall in G |- *. intros t' I. apply in_map_iff in I as (f & <- & I). auto.
  - (* fixed opaque *)
    destruct (de_opaque_fixed_cases n0 i) as [(bs & p & r & _ & _ & _ & _ & ->)|[_ ->]]; discriminate.
  - (* opaque *)
    apply bind_nofuel; [apply read_u32_nofuel|]. intros [z j] Hr. apply Word in Hr as [Hj Hz].
    destruct (@enumerate_u8_cases z j Hz) as [(bs & p & r & _ & _ & _ & _ & ->)|[_ ->]]; discriminate.
  - (* signed32 *)
    apply bind_nofuel; [apply read_i32_nofuel|]. intros [z j] _.
    destruct (with_dflt (assoc Z.eqb z try_from) d0); discriminate.
  - (* indexer *)
    unfold next_element. cbn [Z.eqb].
    destruct (read_i32 i) as [[z j]| | | |] eqn:Hr; try discriminate; [|now apply read_i32_nofuel in Hr].
    apply IWord in Hr. cbn [bind].
    destruct (with_dflt (assoc Z.eqb z names) d0) as [name| |]; try discriminate.
    destruct (find_variant name vs 0) as [[k ts]|] eqn:Hf; [|discriminate].
    apply find_variant_spec in Hf as (x & _ & Hn & _). apply nth_error_In in Hn.
    rewrite forallb_forall in G. specialize (G _ Hn). cbn in G.
    apply bind_nofuel; [|intros [? ?] _; discriminate].
    apply visit_fields_unwrap_nofuel with (L := zlen j); [apply Hlesss; assumption|lia].
  - (* union *)
    apply andb_true_iff in G as [G1 G2].
    unfold next_element. cbn [Z.eqb].
    destruct (Hsame _ G1 i ltac:(lia)) as [F1 R1].
    destruct (deser n E t i) as [[v j]| | | |] eqn:Hr; try discriminate; [|contradiction].
    specialize (R1 v j eq_refl). cbn [bind].
    destruct (with_dflt (assoc rval_eqb v names) d0) as [name| |]; try discriminate.
    destruct (find_variant name vs 0) as [[k [ts|]]|] eqn:Hf; try discriminate.
    apply find_variant_spec in Hf as (x & _ & Hn & _). apply nth_error_In in Hn.
    rewrite forallb_forall in G2. specialize (G2 _ Hn). cbn in G2.
    apply bind_nofuel; [|intros [? ?] _; discriminate].
    apply visit_fields_unwrap_nofuel with (L := zlen i); [apply Hsames; assumption|lia].
  - (* ref *)
    destruct (lookup E name) as [t'|] eqn:Hl; [|discriminate].
    destruct s.
    + apply (Hsame t' G). lia.
    + apply (IH d true); [apply (GE name); exact Hl|]. unfold need in *. lia.
Qed.
