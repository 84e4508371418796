(** [deser] of DeModel.v is the deserializer run on the impls of VisitTypes.v. *)
From Verif Require Import Base Utf8 SerModel RustTypes DeModel SpecXdr SpecTypes SpecDecode XdrFacts ReadFacts EncProofs
  DecProofs CodecProofs StreamProofs VisitModel VisitTypes.
Set Implicit Arguments.
Unset Strict Implicit.

Lemma bind_bind {A B C} (r : res A) (f : A -> res B) (g : B -> res C) : bind (bind r f) g = bind r (fun a => bind (f a) g).
Proof. now destruct r. Qed.
Lemma bind_same {A B} (r : res A) (f g : A -> res B) : (forall a, f a = g a) -> bind r f = bind r g.
Proof. intros H. now destruct r; cbn. Qed.

(** the members after [next_element] calls on a count that suffices *)
Lemma take_run {A B} (ps : list (impl A)) : forall pos (k : list A -> act B) c i,
  run_act (take ps pos k) c i = ('(l, s) <- visit_fields (map (@run A) ps) pos (c, i);; run_act (k l) (fst s) (snd s)).
Proof.
  induction ps as [|p ps IH]; intros pos k c i; [reflexivity|]. cbn [take run_act map visit_fields]. unfold next_element.
  destruct (c =? 0) eqn:C; [reflexivity|]. rewrite !bind_bind. apply bind_same. intros [a j]. cbn [bind]. rewrite IH, bind_bind.
  apply bind_same. intros [l s]. reflexivity.
Qed.
Lemma take_unwrap_run {A B} (ps : list (impl A)) : forall (k : list A -> act B) c i,
  run_act (take_unwrap ps k) c i = ('(l, s) <- visit_fields_unwrap (map (@run A) ps) (c, i);; run_act (k l) (fst s) (snd s)).
Proof.
  induction ps as [|p ps IH]; intros k c i; [reflexivity|]. cbn [take_unwrap run_act map visit_fields_unwrap]. unfold next_element.
  destruct (c =? 0) eqn:C; [reflexivity|]. rewrite !bind_bind. apply bind_same. intros [a j]. cbn [bind]. rewrite IH, bind_bind.
  apply bind_same. intros [l s]. reflexivity.
Qed.
Lemma take_all_run {A B} (p : impl A) n : forall (k : list A -> act B) i,
  run_act (take_all (S n) p k) (Z.of_nat n) i = ('(l, i) <- read_seq (repeat (run p) n) i;; run_act (k l) 0 i).
Proof.
  induction n as [|n IH]; intros k i; [reflexivity|].
  change (repeat (run p) (S n)) with (run p :: repeat (run p) n). cbn [read_seq].
  change (take_all (S (S n)) p k) with (Next p (fun o => match o with None => k [] | Some a => take_all (S n) p (fun l => k (a :: l)) end)).
  cbn [run_act]. destruct (Z.eqb_spec (Z.of_nat (S n)) 0) as [E|_]; [lia|]. replace (Z.of_nat (S n) - 1) with (Z.of_nat n) by lia.
  rewrite bind_bind. apply bind_same. intros [a j]. rewrite IH, bind_bind. apply bind_same. now intros [l s].
Qed.
Lemma take_entries_run {K V B} (kp : impl K) (vp : impl V) n : forall (k : list (K * V) -> act B) i,
  run_act (take_entries (S n) kp vp k) (Z.of_nat n) i =
  ('(l, i) <- read_seq (repeat (fun i => '(a, i) <- run kp i;; '(b, i) <- run vp i;; Ok ((a, b), i)) n) i;; run_act (k l) 0 i).
Proof.
  induction n as [|n IH]; intros k i; [reflexivity|]. set (q := fun i => _) in *.
  change (repeat q (S n)) with (q :: repeat q n). cbn [read_seq]. subst q.
  change (take_entries (S (S n)) kp vp k) with (Next kp (fun o => match o with None => k [] | Some a =>
     Value vp (fun v => take_entries (S n) kp vp (fun l => k ((a, v) :: l))) end)).
  cbn [run_act]. destruct (Z.eqb_spec (Z.of_nat (S n)) 0) as [E|_]; [lia|]. replace (Z.of_nat (S n) - 1) with (Z.of_nat n) by lia.
  rewrite !bind_bind. apply bind_same. intros [a j]. rewrite !bind_bind. apply bind_same. intros [b j']. cbn [bind].
  rewrite IH, bind_bind. apply bind_same. now intros [l s].
Qed.

Lemma int_impl_run s i : run (int_impl s) i = if s then read_i32 i else read_u32 i.
Proof. unfold int_impl. destruct s; cbn [run visit_of de_int]; [destruct (read_i32 i) as [[z j]|e| | |]|destruct (read_u32 i) as [[z j]|e| | |]]; reflexivity. Qed.

Lemma loop_nat_next {S R} (stp : S -> S + R) n s : loop_nat stp (Datatypes.S n) s = match stp s with inl s' => loop_nat stp n s' | inr r => inr r end.
Proof. reflexivity. Qed.
Lemma opaque_run {B} size (k : list byte -> act B) i : (forall bs c i, run_act (k bs) c i = run_act (k bs) 0 i) ->
  run_act (opaque_act size k) size i = ('(bs, i) <- enumerate_u8 (size, i);; run_act (k bs) 0 i).
Proof.
  intros K. unfold opaque_act, enumerate_u8. cbn [fst]. rewrite loopZ_nat. set (stp := fun '(w, s) => _).
  generalize (Z.to_nat ((size + 3) / 4)). intros n.
  assert (G : forall n w c i, run_act (copy_words n size w k) c i =
    match loop_nat stp n (w, (c, i)) with
    | inr r => '(bs, i) <- r;; run_act (k bs) 0 i
    | inl (w, (c, i)) => run_act (k (rev w ++ repeat x00 (Z.to_nat (size - zlen w)))) c i
    end).
  { clear n i. induction n as [|n IH]; intros w c i; [reflexivity|]. rewrite loop_nat_next. cbn [copy_words run_act]. unfold stp at 1, next_element.
    destruct (c =? 0) eqn:C; [apply IH|]. rewrite int_impl_run. destruct (read_u32 i) as [[z j]|e| | |]; cbn [bind]; try reflexivity. apply IH. }
  rewrite G. destruct (loop_nat stp n ([], (size, i))) as [[w [c j]]|r]; [cbn [bind]; apply K|reflexivity].
Qed.

Lemma map_run n E (IH : forall t i, run (impl_of n E t) i = deser n E t i) B (f : B -> ty) ts : forall pos s,
  visit_fields (map (@run rval) (map (fun x => impl_of n E (f x)) ts)) pos s = visit_fields (map (fun x => deser n E (f x)) ts) pos s.
Proof.
  induction ts as [|t ts IHt]; intros pos s; [reflexivity|]. cbn [map visit_fields]. unfold next_element. destruct s as [c i]. rewrite IH.
  destruct (c =? 0); [reflexivity|]. rewrite !bind_bind. apply bind_same. intros [v j]. cbn [bind]. now rewrite IHt.
Qed.
Lemma repeat_run n E (IH : forall t i, run (impl_of n E t) i = deser n E t i) t k : forall pos s,
  visit_fields (map (@run rval) (repeat (impl_of n E t) k)) pos s = visit_fields (repeat (deser n E t) k) pos s.
Proof.
  induction k as [|k IHk]; intros pos s; [reflexivity|]. cbn [repeat map visit_fields]. unfold next_element. destruct s as [c i]. rewrite IH.
  destruct (c =? 0); [reflexivity|]. rewrite !bind_bind. apply bind_same. intros [v j]. cbn [bind]. now rewrite IHk.
Qed.
Lemma map_run_unwrap n E (IH : forall t i, run (impl_of n E t) i = deser n E t i) ts : forall s,
  visit_fields_unwrap (map (@run rval) (map (impl_of n E) ts)) s = visit_fields_unwrap (map (deser n E) ts) s.
Proof.
  induction ts as [|t ts IHt]; intros s; [reflexivity|]. cbn [map visit_fields_unwrap]. unfold next_element. destruct s as [c i]. rewrite IH.
  destruct (c =? 0); [reflexivity|]. rewrite !bind_bind. apply bind_same. intros [v j]. cbn [bind]. now rewrite IHt.
Qed.
Lemma read_seq_ext {A} (p q : parser A) k : (forall i, p i = q i) -> forall i, read_seq (repeat p k) i = read_seq (repeat q k) i.
Proof.
  intros H. induction k as [|k IH]; intros i; [reflexivity|]. cbn [repeat read_seq]. rewrite H. apply bind_same. intros [a j]. now rewrite IH.
Qed.

Theorem impl_of_run n E : forall t i, run (impl_of n E t) i = deser n E t i.
Proof.
  induction n as [|n IH]; intros t i; [reflexivity|].
  assert (M : forall ts (g : list rval -> rval) c i, run_act (take (map (impl_of n E) ts) 0 (fun l => give (g l))) c i =
     ('(l, s) <- visit_fields (map (deser n E) ts) 0 (c, i);; Ok (g l, snd s))).
  { intros ts g c j. rewrite take_run, (map_run IH (fun t => t)). apply bind_same. now intros [l s]. }
  assert (F : forall (ts : list (string * ty)) (g : list rval -> rval) c i, run_act (take (map (fun f => impl_of n E (snd f)) ts) 0 (fun l => give (g l))) c i =
     ('(l, s) <- visit_fields (map (fun f => deser n E (snd f)) ts) 0 (c, i);; Ok (g l, snd s))).
  { intros ts g c j. rewrite take_run, (map_run IH (fun f : string * ty => snd f)). apply bind_same. now intros [l s]. }
  assert (U : forall ts (g : list rval -> rval) c i, run_act (take_unwrap (map (impl_of n E) ts) (fun l => give (g l))) c i =
     ('(l, s) <- visit_fields_unwrap (map (deser n E) ts) (c, i);; Ok (g l, snd s))).
  { intros ts g c j. rewrite take_unwrap_run, (map_run_unwrap IH). apply bind_same. now intros [l s]. }
  destruct t as [|sg w| | | | | |t| | |t|t|t|k t|ts|ts|ts|tk tv|vss|k| |asr tf d|vss ix names d|vss disc names d|x]; cbn [impl_of deser].
  all: try apply IH.
  all: cbn [run visit_of].
  - now destruct (read_u32 i) as [[z j]|e| | |].
  - now destruct (de_int sg w i) as [[z j]|e| | |].
  - now destruct (read_f32 i) as [[z j]|e| | |].
  - now destruct (read_f64 i) as [[z j]|e| | |].
  - now destruct (read_char i) as [[z j]|e| | |].
  - now destruct (read_string i) as [[z j]|e| | |].
  - now destruct (read_bytes i) as [[z j]|e| | |].
  - rewrite bind_bind. apply bind_same. intros [z j]. cbn [bind]. destruct (z =? 0); [reflexivity|]. cbn [run_act]. rewrite IH. apply bind_same. now intros [v l].
  - reflexivity.
  - reflexivity.
  - destruct (read_u32 i) as [[z j]|e| | |] eqn:R; try reflexivity. apply u32_nonneg in R. cbn [bind on_seq count_of].
    replace z with (Z.of_nat (Z.to_nat z)) at 1 2 3 by lia. replace (Z.to_nat (Z.of_nat (Z.to_nat z) + 1)) with (S (Z.to_nat z)) by lia.
    rewrite take_all_run, visit_vec_seq, (read_seq_ext _ (IH t)). apply bind_same. now intros [l s].
  - cbn [bind on_seq count_of]. rewrite take_run, (repeat_run IH). apply bind_same. now intros [l s].
  - apply M.
  - apply M.
  - apply F.
  - destruct (read_u32 i) as [[z j]|e| | |] eqn:R; try reflexivity. apply u32_nonneg in R. cbn [bind count_of].
    replace z with (Z.of_nat (Z.to_nat z)) at 1 2 3 by lia. replace (Z.to_nat (Z.of_nat (Z.to_nat z) + 1)) with (S (Z.to_nat z)) by lia.
    rewrite take_entries_run, visit_map_seq.
    rewrite (@read_seq_ext _ _ (fun i => '(k, i) <- deser n E tk i;; '(v, i) <- deser n E tv i;; Ok ((k, v), i))).
    + rewrite bind_bind. apply bind_same. now intros [l s].
    + intros i'. rewrite IH. apply bind_same. intros [a j']. rewrite IH. reflexivity.
  - cbn [bind run_act]. unfold de_variant_index, variant_of. rewrite bind_bind. apply bind_same. intros [z j].
    destruct (z <? 0); [reflexivity|]. destruct (z <? Z.of_nat (length vss)); [|reflexivity]. cbn [res_of bind].
    destruct (nth_error vss (Z.to_nat z)) as [[x sh]|]; [|reflexivity].
    destruct sh as [|t|ts|ts]; [reflexivity| |apply M|apply F].
    cbn [run_act]. rewrite IH. apply bind_same. now intros [v l].
  - cbn [bind on_seq count_of]. rewrite opaque_run.
    + unfold de_opaque_fixed. rewrite bind_bind. apply bind_same. intros [bs j]. now destruct (Nat.eqb (length bs) k).
    + intros bs c j. now destruct (Nat.eqb (length bs) k).
  - unfold de_opaque_variable. rewrite !bind_bind. apply bind_same. intros [z j]. cbn [bind on_seq count_of]. rewrite opaque_run; [|reflexivity].
    apply bind_same. now intros [bs l].
  - unfold de_int. rewrite bind_bind. apply bind_same. intros [z j]. cbn [bind]. now destruct (with_dflt (assoc Z.eqb z tf) d).
  - cbn [bind on_seq count_of run_act next_element Z.eqb]. rewrite int_impl_run, bind_bind. apply bind_same. intros [z j]. cbn [bind].
    destruct (with_dflt (assoc Z.eqb z names) d) as [name| |]; try reflexivity. destruct (find_variant name vss 0) as [[k ts]|]; [|reflexivity]. apply U.
  - cbn [bind on_seq count_of run_act next_element Z.eqb]. rewrite IH, bind_bind. apply bind_same. intros [z j]. cbn [bind].
    destruct (with_dflt (assoc rval_eqb z names) d) as [name| |]; try reflexivity. destruct (find_variant name vss 0) as [[k [ts|]]|]; [|reflexivity..].
    apply (U ts (fun l => RVariant k (z :: l))).
  - destruct (lookup E x); [apply IH|reflexivity].
Qed.
Theorem from_bytes_instance n E t i : from_bytes_with (impl_of n E t) i = from_bytes n E t i.
Proof. unfold from_bytes_with, from_bytes. now rewrite impl_of_run. Qed.
