(** Every [Deserialize] impl on the deserializer of serde-xdr. *)
From Verif Require Import Base SpecUtf8 Utf8 Utf8Proofs SerModel RustTypes DeModel SpecXdr SpecTypes SpecDecode XdrFacts ReadFacts EncProofs
  DecProofs CodecProofs TotalProofs CodecLemmas StreamProofs VisitModel SpecVisit.
Set Implicit Arguments.
Unset Strict Implicit.

Scheme impl_mut := Induction for impl Sort Prop with act_mut := Induction for act Sort Prop.
Combined Scheme impl_act_ind from impl_mut, act_mut.

(** ** Adding bytes to the input *)
Lemma steady_visit q : steady (visit_of q).
Proof.
  destruct q; unfold visit_of; try (apply steady_err; exact Logic.I); try apply steady_ok.
  - apply (steady_map (fun z => VsBool (negb (z =? 0)))), steady_u32.
  - apply (steady_map VsInt), steady_int.
  - apply (steady_map VsF32), steady_u32.
  - apply (steady_map VsF64), steady_u64.
  - apply (steady_map VsChar), steady_char.
  - apply (steady_map VsStr), steady_string.
  - apply (steady_map VsStr), steady_string.
  - apply (steady_map VsBytes), steady_bytes.
  - apply (steady_map VsBytes), steady_bytes.
  - apply (steady_map (fun z => if z =? 0 then VsNone else VsSome)), steady_u32.
  - apply (steady_map VsSeq), steady_u32.
  - apply (steady_map VsMap), steady_u32.
  - apply (steady_map VsStr), steady_string.
Qed.
Lemma steady_result {A B} (r : result A) (k : A -> parser B) : (forall a, steady (k a)) -> steady (fun i => a <- res_of r;; k a i).
Proof.
  intros K. destruct r; cbn [res_of bind]; [apply K|apply steady_err; exact Logic.I|apply steady_panic|apply steady_fuel|apply steady_stuck].
Qed.
Lemma steady_run_both : (forall A (p : impl A), steady (run p)) /\ (forall A (a : act A) c, steady (run_act a c)).
Proof.
  apply impl_act_ind.
  - intros A q on IH. cbn [run]. apply (@steady_bind _ _ (visit_of q) (fun v => run_act (on v) (count_of v))); [apply steady_visit|]. intros v. apply IH.
  - intros A r c. cbn [run_act]. apply (@steady_result _ _ r (fun a i => Ok (a, i))). intros a. apply steady_ok.
  - intros A p IH c. exact IH.
  - intros A B p IHp k IHk c. cbn [run_act]. destruct (c =? 0); [apply IHk|].
    apply (@steady_bind _ _ (run p) (fun b => run_act (k (Some b)) (c - 1))); [exact IHp|]. intros b. apply IHk.
  - intros A B p IHp k IHk c. cbn [run_act]. apply (@steady_bind _ _ (run p) (fun b => run_act (k b) c)); [exact IHp|]. intros b. apply IHk.
  - intros A B seed k IHk c. cbn [run_act].
    apply (@steady_bind _ _ read_i32 (fun z i => if z <? 0 then Err EConvert else b <- res_of (seed z);; run_act (k b) c i)); [apply steady_i32|].
    intros z. destruct (z <? 0); [apply steady_err; exact Logic.I|]. apply (@steady_result _ _ (seed z) (fun b => run_act (k b) c)). intros b. apply IHk.
Qed.
Lemma steady_run A (p : impl A) : steady (run p).
Proof. apply steady_run_both. Qed.

(** ** What is read does not depend on what follows *)
Definition local {A} (p : parser A) : Prop := forall i a j, p i = Ok (a, j) ->
  exists u, i = u ++ j /\ zlen u mod 4 = 0 /\ forall r, p (u ++ r) = Ok (a, r).
Lemma local_bind {A B} (p : parser A) (q : A -> parser B) : local p -> (forall a, local (q a)) -> local (fun i => '(a, i) <- p i;; q a i).
Proof.
  intros P Q i b k H. destruct (p i) as [[a j]|e| | |] eqn:R; try discriminate. cbn [bind] in H.
  apply P in R as (u & -> & U & R). apply Q in H as (v & -> & V & H). exists (u ++ v). split; [apply app_assoc|]. split; [rewrite zlen_app; lia|].
  intros r. rewrite <- app_assoc, R. apply H.
Qed.
Lemma local_ok {A} (a : A) : local (fun i => Ok (a, i)).
Proof. intros i b j H. injection H as <- <-. now exists []. Qed.
Lemma local_map {A B} (p : parser A) (g : A -> B) : local p -> local (fun i => '(a, i) <- p i;; Ok (g a, i)).
Proof. intros P. apply local_bind; [exact P|]. intros a. apply local_ok. Qed.
Lemma local_u32 : local read_u32.
Proof. intros i z j H. apply read_u32_inv in H as (w & -> & U). exists w. split; [reflexivity|]. split; [unfold zlen; destruct U as [-> _]; reflexivity|]. intros r. now apply read_u32_app. Qed.
Lemma local_u64 : local read_u64.
Proof. intros i z j H. apply read_u64_inv in H as (w & -> & U). exists w. split; [reflexivity|]. split; [unfold zlen; destruct U as [-> _]; reflexivity|]. intros r. now apply read_u64_app. Qed.
Lemma local_i32 : local read_i32.
Proof. intros i z j H. apply read_i32_inv in H as (w & -> & U). exists w. split; [reflexivity|]. split; [unfold zlen; destruct U as [-> _]; reflexivity|]. intros r. now apply read_i32_app. Qed.
Lemma local_int s w : local (de_int s w).
Proof.
  intros i z j H. apply de_int_inv in H as (W & word & z' & -> & U & R & M). exists word. split; [reflexivity|]. split.
  - unfold zlen. destruct U as [-> _]. now destruct w.
  - intros r. now apply de_int_app with z'.
Qed.
Lemma local_char : local read_char.
Proof.
  apply (@local_bind _ _ read_u32 (fun c i => if char_ok c then Ok (c, i) else Err EConvert)); [apply local_u32|].
  intros c. destruct (char_ok c); [apply local_ok|]. intros i a j H. discriminate.
Qed.
Lemma local_string : local read_string.
Proof.
  intros i bs j H. apply read_string_inv in H as (n & p & -> & U & P & V). exists (n ++ bs ++ p). rewrite <- !app_assoc. split; [reflexivity|]. split.
  - rewrite !zlen_app, Z.add_assoc. destruct U as [L _]. unfold any_pad in P. unfold zlen in *. lia.
  - intros r. rewrite <- !app_assoc. now apply read_string_app.
Qed.
Lemma local_bytes : local read_bytes.
Proof.
  intros i bs j H. apply read_bytes_inv in H as (n & p & -> & U & P). exists (n ++ bs ++ p). rewrite <- !app_assoc. split; [reflexivity|]. split.
  - rewrite !zlen_app, Z.add_assoc. destruct U as [L _]. unfold any_pad in P. unfold zlen in *. lia.
  - intros r. rewrite <- !app_assoc. now apply read_bytes_app.
Qed.
Lemma local_visit q : local (visit_of q).
Proof.
  destruct q; unfold visit_of; try (intros i a j H; discriminate); try apply local_ok.
  - apply (@local_map _ _ _ (fun z => VsBool (negb (z =? 0)))), local_u32.
  - apply (@local_map _ _ _ VsInt), local_int.
  - apply (@local_map _ _ _ VsF32), local_u32.
  - apply (@local_map _ _ _ VsF64), local_u64.
  - apply (@local_map _ _ _ VsChar), local_char.
  - apply (@local_map _ _ _ VsStr), local_string.
  - apply (@local_map _ _ _ VsStr), local_string.
  - apply (@local_map _ _ _ VsBytes), local_bytes.
  - apply (@local_map _ _ _ VsBytes), local_bytes.
  - apply (@local_map _ _ _ (fun z => if z =? 0 then VsNone else VsSome)), local_u32.
  - apply (@local_map _ _ _ VsSeq), local_u32.
  - apply (@local_map _ _ _ VsMap), local_u32.
  - apply (@local_map _ _ _ VsStr), local_string.
Qed.
Lemma local_result {A B} (r : result A) (k : A -> parser B) : (forall a, local (k a)) -> local (fun i => a <- res_of r;; k a i).
Proof. intros K. destruct r; cbn [res_of bind]; [apply K|..]; intros i a' j H; discriminate. Qed.
Lemma local_run_both : (forall A (p : impl A), local (run p)) /\ (forall A (a : act A) c, local (run_act a c)).
Proof.
  apply impl_act_ind.
  - intros A q on IH. cbn [run]. apply (@local_bind _ _ (visit_of q) (fun v => run_act (on v) (count_of v))); [apply local_visit|]. intros v. apply IH.
  - intros A r c. cbn [run_act]. apply (@local_result _ _ r (fun a i => Ok (a, i))). intros a. apply local_ok.
  - intros A p IH c. exact IH.
  - intros A B p IHp k IHk c. cbn [run_act]. destruct (c =? 0); [apply IHk|].
    apply (@local_bind _ _ (run p) (fun b => run_act (k (Some b)) (c - 1))); [exact IHp|]. intros b. apply IHk.
  - intros A B p IHp k IHk c. cbn [run_act]. apply (@local_bind _ _ (run p) (fun b => run_act (k b) c)); [exact IHp|]. intros b. apply IHk.
  - intros A B seed k IHk c. cbn [run_act].
    apply (@local_bind _ _ read_i32 (fun z i => if z <? 0 then Err EConvert else b <- res_of (seed z);; run_act (k b) c i)); [apply local_i32|].
    intros z. destruct (z <? 0); [intros i a j H; discriminate|]. apply (@local_result _ _ (seed z) (fun b => run_act (k b) c)). intros b. apply IHk.
Qed.

Theorem run_local A (p : impl A) i a j : run p i = Ok (a, j) ->
  exists u, i = u ++ j /\ zlen u mod 4 = 0 /\ forall r, run p (u ++ r) = Ok (a, r).
Proof. apply local_run_both. Qed.
Lemma with_ok A (p : impl A) i a : from_bytes_with p i = Ok a <-> run p i = Ok (a, []).
Proof. unfold from_bytes_with. split; [|now intros ->]. destruct (run p i) as [[v [|b j]]|e| | |]; try discriminate. cbn. congruence. Qed.
Theorem with_units A (p : impl A) i a : from_bytes_with p i = Ok a -> zlen i mod 4 = 0.
Proof. intros H. apply with_ok in H. apply run_local in H as (u & -> & U & _). now rewrite app_nil_r. Qed.
Theorem with_trailing A (p : impl A) i k : from_bytes_with p i = Err (ETrailingData k) <->
  exists c s a, i = c ++ s /\ s <> [] /\ k = zlen s /\ from_bytes_with p c = Ok a.
Proof.
  split.
  - unfold from_bytes_with at 1. intros H. pose proof (steady_run p i []) as S. unfold later in S.
    destruct (run p i) as [[v j]|e| | |] eqn:R; try discriminate; cbn [bind] in H.
    + destruct j as [|b j]; [discriminate|]. injection H as <-. apply run_local in R as (u & -> & _ & R). exists u, (b :: j), v.
      split; [reflexivity|]. split; [discriminate|]. split; [reflexivity|]. apply with_ok. specialize (R []). now rewrite app_nil_r in R.
    + injection H as ->. contradiction.
  - intros (c & s & a & -> & N & -> & R). apply with_ok in R. apply run_local in R as (u & E & _ & R). rewrite app_nil_r in E. subst u.
    unfold from_bytes_with. rewrite R. cbn [bind]. now destruct s.
Qed.
Theorem with_missing A (p : impl A) i k : from_bytes_with p i = Err (ENotEnoughData k) ->
  0 < k /\ forall r, zlen r < k -> from_bytes_with p (i ++ r) = Err (ENotEnoughData (k - zlen r)).
Proof.
  unfold from_bytes_with. intros H. assert (D : run p i = Err (ENotEnoughData k)).
  { destruct (run p i) as [[v j]|e| | |]; try discriminate; cbn [bind] in H; [destruct j; discriminate|now injection H as ->]. }
  split.
  - pose proof (steady_run p i []) as S. unfold later in S. rewrite D in S. apply S.
  - intros r L. pose proof (steady_run p i r) as S. unfold later in S. rewrite D in S. destruct S as [_ S]. now rewrite (S L).
Qed.
Theorem with_final A (p : impl A) i e r : from_bytes_with p i = Err e -> (forall k, e <> ENotEnoughData k) -> (forall k, e <> ETrailingData k) ->
  from_bytes_with p (i ++ r) = Err e.
Proof.
  unfold from_bytes_with. intros H NE NT. pose proof (steady_run p i r) as S. unfold later in S.
  destruct (run p i) as [[v j]|e'| | |]; try discriminate; cbn [bind] in H.
  - destruct j; [discriminate|]. injection H as <-. now destruct (NT _ eq_refl).
  - injection H as ->. destruct e; try (now rewrite S); [|contradiction]. now destruct (NE _ eq_refl).
Qed.
Theorem with_cut A (p : impl A) i q a : from_bytes_with p (i ++ q) = Ok a -> q <> [] ->
  exists k, 0 < k <= zlen q /\ (from_bytes_with p i = Err (ENotEnoughData k) \/ from_bytes_with p i = Panic /\ k < 4 /\ (zlen i + k) mod 4 = 0).
Proof.
  intros R Q. apply with_ok in R. pose proof (steady_run p i q) as S. unfold later in S. unfold from_bytes_with.
  destruct (run p i) as [[v j]|e| | |]; cbn [bind].
  - destruct S as [S _]. rewrite R in S. injection S as _ S. symmetry in S. apply app_eq_nil in S as [_ S]. contradiction.
  - destruct e as [| | |k| | |]; try (rewrite R in S; discriminate); [|contradiction]. destruct S as [K S]. exists k. split; [|now left].
    split; [exact K|]. destruct (Z_lt_le_dec (zlen q) k) as [L|L]; [|exact L]. rewrite R in S. now specialize (S L).
  - destruct S as [S|(k & K & M & S)]; [rewrite R in S; discriminate|]. exists k. split.
    + split; [lia|]. destruct (Z_lt_le_dec (zlen q) k) as [L|L]; [|exact L]. rewrite R in S. now specialize (S L).
    + right. split; [reflexivity|]. split; [lia|exact M].
  - rewrite R in S. discriminate.
  - rewrite R in S. discriminate.
Qed.

(** ** Panics *)
Definition safe {A} (p : parser A) : Prop := forall i, zlen i mod 4 = 0 -> p i <> Panic.
Lemma safe_bind {A B} (p : parser A) (q : A -> parser B) : safe p -> local p -> (forall a, safe (q a)) -> safe (fun i => '(a, i) <- p i;; q a i).
Proof.
  intros P L Q i U. specialize (P i U). destruct (p i) as [[a j]|e| | |] eqn:R; try discriminate; [|contradiction]. cbn [bind].
  apply L in R as (u & -> & V & _). rewrite zlen_app in U. apply Q. lia.
Qed.
Lemma safe_ok {A} (a : A) : safe (fun i => Ok (a, i)).
Proof. intros i _. discriminate. Qed.
Lemma safe_map {A B} (p : parser A) (g : A -> B) : safe p -> safe (fun i => '(a, i) <- p i;; Ok (g a, i)).
Proof. intros P i U. specialize (P i U). now destruct (p i) as [[a j]|e| | |]. Qed.
Lemma safe_read k : safe (read k).
Proof. intros i _. unfold read. now destruct (zlen i <? k). Qed.
Lemma safe_u32 : safe read_u32.
Proof. apply (@safe_map _ _ _ be_val), safe_read. Qed.
Lemma safe_i32 : safe read_i32.
Proof. apply (@safe_map _ _ _ (fun v => wrap_s 32 (be_val v))), safe_read. Qed.
Lemma safe_u64 : safe read_u64.
Proof. apply (@safe_map _ _ _ be_val), safe_read. Qed.
Lemma safe_i64 : safe read_i64.
Proof. apply (@safe_map _ _ _ (fun v => wrap_s 64 (be_val v))), safe_read. Qed.
Lemma safe_int s w : safe (de_int s w).
Proof.
  destruct s, w; unfold de_int; first [apply safe_i32|apply safe_u32|apply safe_i64|apply safe_u64|intros i _; discriminate|apply safe_map; first [apply safe_i32|apply safe_u32]].
Qed.
Lemma safe_char : safe read_char.
Proof. apply safe_bind; [apply safe_u32|apply local_u32|]. intros c. destruct (char_ok c); [apply safe_ok|intros i _; discriminate]. Qed.
Lemma safe_data (ok : list byte -> bool) size : 0 <= size ->
  safe (fun i => '(v, i) <- read size i;;
    if ok v then if 4 - size mod 4 <? 4 then i <- slice_from (4 - size mod 4) i;; Ok (v, i) else Ok (v, i) else Err EEncoding).
Proof.
  intros Z0 i U. destruct (read_cases i Z0) as [(a & j & -> & L & ->)|[L ->]]; cbn [bind]; [|discriminate].
  destruct (ok a); [|discriminate]. destruct (Z.ltb_spec (4 - size mod 4) 4) as [P|P]; [|discriminate].
  unfold slice_from. rewrite zlen_app in U. pose proof (zlen_nonneg j). destruct (Z.ltb_spec (zlen j) (4 - size mod 4)); [|discriminate]. lia.
Qed.
Lemma safe_sized {A} (q : Z -> parser A) : (forall z, 0 <= z -> safe (q z)) -> safe (fun i => '(z, i) <- read_u32 i;; q z i).
Proof.
  intros Q i U. destruct (read_u32 i) as [[z j]|e| | |] eqn:R; try discriminate; [|now apply safe_u32 in R]. cbn [bind].
  pose proof (u32_nonneg R). apply local_u32 in R as (u & -> & V & _). rewrite zlen_app in U. apply Q; lia.
Qed.
Lemma safe_string : safe read_string.
Proof. apply safe_sized. intros z Z0. exact (@safe_data utf8_ok z Z0). Qed.
Lemma safe_bytes : safe read_bytes.
Proof. apply safe_sized. intros z Z0. exact (@safe_data (fun _ => true) z Z0). Qed.
Lemma safe_visit q : safe (visit_of q).
Proof.
  destruct q; unfold visit_of; try (intros i _; discriminate); try apply safe_ok.
  - apply (@safe_map _ _ _ (fun z => VsBool (negb (z =? 0)))), safe_u32.
  - apply (@safe_map _ _ _ VsInt), safe_int.
  - apply (@safe_map _ _ _ VsF32), safe_u32.
  - apply (@safe_map _ _ _ VsF64), safe_u64.
  - apply (@safe_map _ _ _ VsChar), safe_char.
  - apply (@safe_map _ _ _ VsStr), safe_string.
  - apply (@safe_map _ _ _ VsStr), safe_string.
  - apply (@safe_map _ _ _ VsBytes), safe_bytes.
  - apply (@safe_map _ _ _ VsBytes), safe_bytes.
  - apply (@safe_map _ _ _ (fun z => if z =? 0 then VsNone else VsSome)), safe_u32.
  - apply (@safe_map _ _ _ VsSeq), safe_u32.
  - apply (@safe_map _ _ _ VsMap), safe_u32.
  - apply (@safe_map _ _ _ VsStr), safe_string.
Qed.
Lemma safe_result {A B} (r : result A) (k : A -> parser B) : quiet r -> (forall a, safe (k a)) -> safe (fun i => a <- res_of r;; k a i).
Proof. intros Q K. destruct r; cbn [res_of bind]; [apply K|intros i _; discriminate| |intros i _; discriminate..]. now destruct Q. Qed.
Lemma safe_run_both : (forall A (p : impl A), calm p -> safe (run p)) /\ (forall A (a : act A), calm_act a -> forall c, safe (run_act a c)).
Proof.
  apply impl_act_ind.
  - intros A q on IH C. cbn [run]. apply (@safe_bind _ _ (visit_of q) (fun v => run_act (on v) (count_of v))); [apply safe_visit|apply local_visit|]. intros v. apply IH, C.
  - intros A r C c. cbn [run_act]. apply (@safe_result _ _ r (fun a i => Ok (a, i))); [exact C|]. intros a. apply safe_ok.
  - intros A p IH C c. exact (IH C).
  - intros A B p IHp k IHk [Cp Ck] c. cbn [run_act]. destruct (c =? 0); [apply IHk, Ck|].
    apply (@safe_bind _ _ (run p) (fun b => run_act (k (Some b)) (c - 1))); [exact (IHp Cp)|apply local_run_both|]. intros b. apply IHk, Ck.
  - intros A B p IHp k IHk [Cp Ck] c. cbn [run_act].
    apply (@safe_bind _ _ (run p) (fun b => run_act (k b) c)); [exact (IHp Cp)|apply local_run_both|]. intros b. apply IHk, Ck.
  - intros A B seed k IHk [Cs Ck] c. cbn [run_act].
    apply (@safe_bind _ _ read_i32 (fun z i => if z <? 0 then Err EConvert else b <- res_of (seed z);; run_act (k b) c i)); [apply safe_i32|apply local_i32|].
    intros z. destruct (z <? 0); [intros i _; discriminate|]. apply (@safe_result _ _ (seed z) (fun b => run_act (k b) c)); [apply Cs|]. intros b. apply IHk, Ck.
Qed.
Theorem with_calm A (p : impl A) i : calm p -> zlen i mod 4 = 0 -> from_bytes_with p i <> Panic.
Proof.
  intros C U. unfold from_bytes_with. pose proof (proj1 safe_run_both A p C i U) as S.
  destruct (run p i) as [[v j]|e| | |]; try discriminate; [|contradiction]. cbn. now destruct j.
Qed.
