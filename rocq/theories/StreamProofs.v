(** Reading an input to which more bytes are added. *)
From Verif Require Import Base SpecUtf8 Utf8 RustTypes SerModel DeModel SpecXdr SpecTypes XdrFacts ReadFacts EncProofs DecProofs CodecProofs CodecLemmas.
Set Implicit Arguments.
Unset Strict Implicit.

Definition later {A} (p : parser A) (i r : st) : Prop :=
  match p i with
  | Ok (a, j) => p (i ++ r) = Ok (a, j ++ r) /\ (zlen i - zlen j) mod 4 = 0
  | Err (ENotEnoughData k) => 0 < k /\ (zlen r < k -> p (i ++ r) = Err (ENotEnoughData (k - zlen r)))
  | Err (ETrailingData _) => False
  | Err e => p (i ++ r) = Err e
  | Panic => p (i ++ r) = Panic \/ exists k, 0 < k < 4 /\ (zlen i + k) mod 4 = 0 /\ (zlen r < k -> p (i ++ r) = Panic)
  | Fuel => p (i ++ r) = Fuel
  | Stuck => p (i ++ r) = Stuck
  end.
Definition steady {A} (p : parser A) : Prop := forall i r, later p i r.

Lemma steady_ext {A} (p q : parser A) : (forall i, p i = q i) -> steady q -> steady p.
Proof. intros H S i r. specialize (S i r). unfold later in *. now rewrite !H. Qed.
Lemma steady_ok {A} (a : A) : steady (fun i => Ok (a, i)).
Proof. intros i r. cbn. split; [reflexivity|]. now rewrite Z.sub_diag. Qed.
Lemma steady_err {A} e : match e with ENotEnoughData _ | ETrailingData _ => False | _ => True end -> steady (fun _ => @Err (A * st) e).
Proof. intros H i r. unfold later. now destruct e. Qed.
Lemma steady_panic {A} : steady (fun _ => @Panic (A * st)).
Proof. intros i r. now left. Qed.
Lemma steady_fuel {A} : steady (fun _ => @Fuel (A * st)).
Proof. intros i r. reflexivity. Qed.
Lemma steady_stuck {A} : steady (fun _ => @Stuck (A * st)).
Proof. intros i r. reflexivity. Qed.
Lemma steady_bind {A B} (p : parser A) (q : A -> parser B) : steady p -> (forall a, steady (q a)) ->
  steady (fun i => '(a, i) <- p i;; q a i).
Proof.
  intros P Q i r. specialize (P i r). unfold later in *. destruct (p i) as [[a j]|e| | |].
  - destruct P as [-> M]. cbn [bind]. specialize (Q a j r). unfold later in Q. destruct (q a j) as [[b k]|e| | |]; [|destruct e|..]; try exact Q.
    + destruct Q as [Q N]. split; [exact Q|]. lia.
    + destruct Q as [Q|(k & K & N & Q)]; [now left|right]. exists k. split; [exact K|]. split; [lia|exact Q].
  - cbn [bind]. destruct e; try (now rewrite P); [|contradiction]. destruct P as [K P]. split; [exact K|]. intros L. now rewrite P.
  - cbn [bind]. destruct P as [->|(k & K & N & P)]; [now left|right]. exists k. repeat (split; [assumption|]). intros L. now rewrite P.
  - cbn [bind]. now rewrite P.
  - cbn [bind]. now rewrite P.
Qed.
Lemma steady_map {A B} (p : parser A) (g : A -> B) : steady p -> steady (fun i => '(a, i) <- p i;; Ok (g a, i)).
Proof. intros P. apply steady_bind; [exact P|]. intros a. apply steady_ok. Qed.

Lemma steady_read k : 0 <= k -> k mod 4 = 0 -> steady (read k).
Proof.
  intros K M i r. unfold later. destruct (read_cases i K) as [(a & j & -> & L & ->)|[L ->]].
  - rewrite <- app_assoc, read_app by exact L. split; [reflexivity|]. rewrite zlen_app. lia.
  - split; [lia|]. intros Lr. unfold read. rewrite zlen_app. destruct (Z.ltb_spec (zlen i + zlen r) k); [|lia]. do 2 f_equal. lia.
Qed.
Lemma steady_u32 : steady read_u32.
Proof. apply (@steady_map _ _ (read 4) be_val). now apply steady_read. Qed.
Lemma steady_i32 : steady read_i32.
Proof. apply (@steady_map _ _ (read 4) (fun v => wrap_s 32 (be_val v))). now apply steady_read. Qed.
Lemma steady_u64 : steady read_u64.
Proof. apply (@steady_map _ _ (read 8) be_val). now apply steady_read. Qed.
Lemma steady_i64 : steady read_i64.
Proof. apply (@steady_map _ _ (read 8) (fun v => wrap_s 64 (be_val v))). now apply steady_read. Qed.
Lemma steady_int s w : steady (de_int s w).
Proof.
  destruct s, w; unfold de_int; first [apply steady_i32|apply steady_u32|apply steady_i64|apply steady_u64|apply steady_err; exact I|apply steady_map; first [apply steady_i32|apply steady_u32]].
Qed.
Lemma steady_char : steady read_char.
Proof.
  apply steady_bind; [apply steady_u32|]. intros c. destruct (char_ok c); [apply steady_ok|apply steady_err; exact I].
Qed.

(** a string or opaque after its length *)
Lemma steady_data (ok : list byte -> bool) size : 0 <= size ->
  steady (fun i => '(v, i) <- read size i;;
    if ok v then if 4 - size mod 4 <? 4 then i <- slice_from (4 - size mod 4) i;; Ok (v, i) else Ok (v, i) else Err EEncoding).
Proof.
  intros Z0 i r. unfold later. destruct (read_cases i Z0) as [(a & j & -> & L & ->)|[L ->]]; cbn [bind].
  - rewrite <- app_assoc, read_app by exact L. cbn [bind]. destruct (ok a); [|reflexivity].
    destruct (Z.ltb_spec (4 - size mod 4) 4) as [P|P].
    + unfold slice_from. rewrite zlen_app. pose proof (zlen_nonneg r). destruct (Z.ltb_spec (zlen j) (4 - size mod 4)) as [S|S]; cbn [bind].
      * right. exists (4 - size mod 4 - zlen j). pose proof (zlen_nonneg j). split; [lia|]. split.
        -- rewrite zlen_app. replace (zlen a + zlen j + (4 - size mod 4 - zlen j)) with (size + (4 - size mod 4)) by lia. lia.
        -- intros R. destruct (Z.ltb_spec (zlen j + zlen r) (4 - size mod 4)); [reflexivity|lia].
      * destruct (Z.ltb_spec (zlen j + zlen r) (4 - size mod 4)); [lia|]. cbn [bind]. split.
        -- do 2 f_equal. unfold zlen in S. rewrite skipn_app. replace (Z.to_nat (4 - size mod 4) - length j)%nat with O by lia. reflexivity.
        -- rewrite zlen_app. unfold zlen in *. rewrite skipn_length. lia.
    + split; [reflexivity|]. rewrite zlen_app. lia.
  - split; [lia|]. intros Lr. unfold read. rewrite zlen_app. destruct (Z.ltb_spec (zlen i + zlen r) size); [|lia]. cbn [bind]. do 2 f_equal. lia.
Qed.
Lemma u32_nonneg i z j : read_u32 i = Ok (z, j) -> 0 <= z.
Proof. intros H. apply read_u32_inv in H as (w & _ & U). apply unsigned_range in U. lia. Qed.
Lemma steady_sized {A} (q : Z -> parser A) : (forall z, 0 <= z -> steady (q z)) -> steady (fun i => '(z, i) <- read_u32 i;; q z i).
Proof.
  intros Q. apply steady_ext with (fun i => '(z, i) <- read_u32 i;; q (Z.max 0 z) i).
  - intros i. destruct (read_u32 i) as [[z j]|e| | |] eqn:R; try reflexivity. cbn [bind]. apply u32_nonneg in R. now rewrite Z.max_r by lia.
  - apply steady_bind; [apply steady_u32|]. intros z. apply Q. lia.
Qed.
Lemma steady_string : steady read_string.
Proof. apply steady_sized. intros z Z0. apply (steady_data utf8_ok Z0). Qed.
Lemma steady_bytes : steady read_bytes.
Proof. apply steady_sized. intros z Z0. apply (steady_data (fun _ => true) Z0). Qed.

Lemma steady_enumerate size : 0 <= size -> steady (fun i => enumerate_u8 (size, i)).
Proof.
  intros Z0 i r. unfold later. destruct (enumerate_u8_cases i Z0) as [(bs & p & j & -> & L & M & P & ->)|[L ->]].
  - rewrite <- !app_assoc. rewrite enumerate_u8_ok by assumption. split; [reflexivity|]. rewrite !zlen_app. lia.
  - split; [lia|]. intros Lr. pose proof (zlen_nonneg r). rewrite enumerate_u8_short; [|exact Z0|rewrite zlen_app; lia]. do 2 f_equal. rewrite zlen_app. lia.
Qed.
Lemma steady_opaque_fixed k : steady (de_opaque_fixed k).
Proof.
  apply steady_bind with (p := fun i => enumerate_u8 (Z.of_nat k, i)) (q := fun bs i => if Nat.eqb (length bs) k then Ok (bs, i) else Panic).
  - apply steady_enumerate. lia.
  - intros bs. destruct (Nat.eqb (length bs) k); [apply steady_ok|apply steady_panic].
Qed.
Lemma steady_opaque_variable : steady de_opaque_variable.
Proof. apply steady_sized. intros z Z0. now apply steady_enumerate. Qed.
Lemma steady_variant_index k : steady (de_variant_index k).
Proof.
  apply steady_bind; [apply steady_i32|]. intros z. destruct (z <? 0); [apply steady_err; exact I|].
  destruct (z <? Z.of_nat k); [apply steady_ok|apply steady_err; exact I].
Qed.

Lemma steady_seq {A} (ps : list (parser A)) : Forall steady ps -> steady (read_seq ps).
Proof.
  induction 1 as [|p ps P _ IH]; [apply steady_ok|]. cbn [read_seq]. apply steady_bind; [exact P|]. intros a. now apply steady_map.
Qed.
Lemma steady_vec {A} (p : parser A) k : 0 <= k -> steady p -> steady (fun i => visit_vec p (k, i)).
Proof.
  intros K P. apply steady_ext with (read_seq (repeat p (Z.to_nat k))).
  - intros i. now rewrite <- visit_vec_seq, Z2Nat.id.
  - apply steady_seq. apply Forall_forall. intros q Q. apply repeat_spec in Q. now subst.
Qed.
Lemma steady_fields {A} (ps : list (parser A)) B (g : list A -> B) : Forall steady ps ->
  steady (fun i => '(l, s) <- visit_fields ps 0 (zlen ps, i);; Ok (g l, snd s)).
Proof.
  intros P. apply steady_ext with (fun i => '(l, i) <- read_seq ps i;; Ok (g l, i)).
  - intros i. rewrite visit_fields_seq by lia. now destruct (read_seq ps i) as [[l j]|e| | |].
  - now apply steady_map, steady_seq.
Qed.
Lemma steady_unwrap {A} (ps : list (parser A)) B (g : list A -> B) c : Forall steady ps ->
  steady (fun i => '(l, s) <- visit_fields_unwrap ps (c, i);; Ok (g l, snd s)).
Proof.
  intros P. revert B g c. induction P as [|p ps P _ IH]; intros B g c; [apply steady_ok|].
  cbn [visit_fields_unwrap]. unfold next_element. destruct (c =? 0); [apply steady_panic|].
  apply steady_ext with (fun i => '(a, i) <- p i;; '(l, s) <- visit_fields_unwrap ps (c - 1, i);; Ok (g (a :: l), snd s)).
  - intros i. destruct (p i) as [[a j]|e| | |]; try reflexivity. cbn [bind]. now destruct (visit_fields_unwrap ps (c - 1, j)) as [[l s]|e| | |].
  - apply steady_bind; [exact P|]. intros a. apply (IH B (fun l => g (a :: l))).
Qed.
Lemma steady_next {A B} (p : parser A) (k : option A -> Z -> parser B) : steady p -> (forall a c, steady (k (Some a) c)) ->
  steady (fun i => '(o, s) <- next_element p (10, i);; k o (fst s) (snd s)).
Proof.
  intros P K. apply steady_ext with (fun i => '(a, i) <- p i;; k (Some a) 9 i).
  - intros i. cbn. now destruct (p i) as [[a j]|e| | |].
  - apply steady_bind; [exact P|]. intros a. apply K.
Qed.

Lemma steady_deser n E t : steady (deser n E t).
Proof.
  revert t. induction n as [|n IH]; intros t; [apply steady_fuel|].
  assert (AL : forall ts, Forall steady (map (deser n E) ts)) by (intros ts; apply Forall_forall; intros p Q; apply in_map_iff in Q as (t' & <- & _); apply IH).
  assert (AF : forall ts : list (string * ty), Forall steady (map (fun f => deser n E (snd f)) ts))
    by (intros ts; apply Forall_forall; intros p Q; apply in_map_iff in Q as (t' & <- & _); apply IH).
  assert (FL : forall ts B (g : list rval -> B), steady (fun i => '(l, s) <- visit_fields (map (deser n E) ts) 0 (zlen ts, i);; Ok (g l, snd s))).
  { intros ts B g. pose proof (steady_fields g (AL ts)) as S. unfold zlen in *. now rewrite map_length in S. }
  assert (FF : forall (ts : list (string * ty)) B (g : list rval -> B), steady (fun i => '(l, s) <- visit_fields (map (fun f => deser n E (snd f)) ts) 0 (zlen ts, i);; Ok (g l, snd s))).
  { intros ts B g. pose proof (steady_fields g (AF ts)) as S. unfold zlen in *. now rewrite map_length in S. }
  destruct t as [|sg w| | | | | |t| | |t|t|t|k t|ts|ts|ts|tk tv|vss|k| |asr tf d|vss ix names d|vss disc names d|x]; cbn [deser];
    try apply FL; try apply FF; try apply IH; try apply steady_ok.
  - apply (steady_map (fun z => RBool (negb (z =? 0)))), steady_u32.
  - apply (steady_map RInt), steady_int.
  - apply (steady_map RFloat), steady_u32.
  - apply (steady_map RFloat), steady_u64.
  - apply (steady_map RChar), steady_char.
  - apply (steady_map RStr), steady_string.
  - apply (steady_map RBytes), steady_bytes.
  - apply steady_bind with (q := fun z i => if z =? 0 then Ok (RNone, i) else '(v, i) <- deser n E t i;; Ok (RSome v, i)); [apply steady_u32|].
    intros z. destruct (z =? 0); [apply steady_ok|]. apply (steady_map RSome), IH.
  - apply steady_sized with (q := fun count i => '(l, i) <- visit_vec (deser n E t) (count, i);; Ok (RSeq l, i)).
    intros z Z0. apply (steady_map RSeq), steady_vec; [exact Z0|apply IH].
  - pose proof (@steady_fields _ (repeat (deser n E t) k) _ RSeq) as S.
    replace (Z.of_nat k) with (zlen (repeat (deser n E t) k)) by (unfold zlen; now rewrite repeat_length).
    apply S. apply Forall_forall. intros q Q. apply repeat_spec in Q. subst. apply IH.
  - apply steady_sized with (q := fun count i => '(m, i) <- visit_map (deser n E tk) (deser n E tv) (count, i);; Ok (RMap m, i)).
    intros z Z0. apply (steady_map RMap). unfold visit_map.
    apply (steady_map (fun l => fold_left (fun m kv => map_insert (fst kv) (snd kv) m) l [])). apply steady_vec; [exact Z0|].
    apply steady_bind with (q := fun k i => '(v, i) <- deser n E tv i;; Ok ((k, v), i)); [apply IH|]. intros k. apply (steady_map (fun v => (k, v))), IH.
  - eapply steady_bind; [apply steady_variant_index|]. intros k. cbn beta. destruct (nth_error vss k) as [[x sh]|]; [|apply steady_stuck].
    destruct sh as [|t|ts|ts]; [apply steady_ok|apply (steady_map (fun v => RVariant k [v])), IH|apply FL|apply FF].
  - apply (steady_map RBytes), steady_opaque_fixed.
  - apply (steady_map RBytes), steady_opaque_variable.
  - eapply steady_bind; [apply steady_i32|]. intros z. cbn beta.
    destruct (with_dflt (assoc Z.eqb z tf) d); [apply steady_ok|apply steady_err; exact I|apply steady_panic].
  - pose (K := fun (o : option Z) (c : Z) (i : st) =>
      match o with
      | None => @Panic (rval * st)
      | Some z => match with_dflt (assoc Z.eqb z names) d with
        | DErr => Err (ECustom (MCannotConvert z)) | DPanic => Panic
        | DVal name => match find_variant name vss 0 with None => Panic
          | Some (k, ts) => '(l, s) <- visit_fields_unwrap (map (deser n E) ts) (c, i);; Ok (RVariant k l, snd s) end end end).
    apply steady_ext with (fun i => '(o, s) <- next_element read_i32 (10, i);; K o (fst s) (snd s)).
    + intros i. cbn [next_element Z.eqb]. destruct (read_i32 i) as [[z j]|e| | |]; reflexivity.
    + apply steady_next; [apply steady_i32|]. intros z c. unfold K.
      destruct (with_dflt (assoc Z.eqb z names) d) as [name| |]; [|apply steady_err; exact I|apply steady_panic].
      destruct (find_variant name vss 0) as [[k ts]|]; [|apply steady_panic]. apply (steady_unwrap (RVariant k) c (AL ts)).
  - pose (K := fun (o : option rval) (c : Z) (i : st) =>
      match o with
      | None => @Panic (rval * st)
      | Some v => match with_dflt (assoc rval_eqb v names) d with
        | DErr => Err (ECustom MCannotConvertValue) | DPanic => Panic
        | DVal name => match find_variant name vss 0 with None => Panic
          | Some (k, None) => Ok (RVariant k [], i)
          | Some (k, Some ts) => '(l, s) <- visit_fields_unwrap (map (deser n E) ts) (c, i);; Ok (RVariant k (v :: l), snd s) end end end).
    apply steady_ext with (fun i => '(o, s) <- next_element (deser n E disc) (10, i);; K o (fst s) (snd s)).
    + intros i. cbn [next_element Z.eqb]. destruct (deser n E disc i) as [[z j]|e| | |]; reflexivity.
    + apply steady_next; [apply IH|]. intros v c. unfold K.
      destruct (with_dflt (assoc rval_eqb v names) d) as [name| |]; [|apply steady_err; exact I|apply steady_panic].
      destruct (find_variant name vss 0) as [[k [ts|]]|]; [|apply steady_ok|apply steady_panic]. apply (steady_unwrap (fun l => RVariant k (v :: l)) c (AL ts)).
  - destruct (lookup E x); [apply IH|apply steady_stuck].
Qed.

(** ** What an error says *)
Theorem missing_bytes n E t i k : from_bytes n E t i = Err (ENotEnoughData k) ->
  0 < k /\ forall r, zlen r < k -> from_bytes n E t (i ++ r) = Err (ENotEnoughData (k - zlen r)).
Proof.
  unfold from_bytes. intros H. assert (D : deser n E t i = Err (ENotEnoughData k)).
  { destruct (deser n E t i) as [[v j]|e| | |]; try discriminate; cbn [bind] in H; [destruct j; discriminate|now injection H as ->]. }
  split.
  - pose proof (steady_deser n E t i []) as S. unfold later in S. rewrite D in S. apply S.
  - intros r L. pose proof (steady_deser n E t i r) as S. unfold later in S. rewrite D in S. destruct S as [_ S]. now rewrite (S L).
Qed.
Theorem final_error n E t i e r : from_bytes n E t i = Err e -> (forall k, e <> ENotEnoughData k) -> (forall k, e <> ETrailingData k) ->
  from_bytes n E t (i ++ r) = Err e.
Proof.
  unfold from_bytes. intros H NE NT. pose proof (steady_deser n E t i r) as S. unfold later in S.
  destruct (deser n E t i) as [[v j]|e'| | |]; try discriminate; cbn [bind] in H.
  - destruct j; [discriminate|]. injection H as <-. now destruct (NT _ eq_refl).
  - injection H as ->. destruct e; try (now rewrite S); [|contradiction]. now destruct (NE _ eq_refl).
Qed.
Lemma returns_some {A} (f : nat -> res A) r : returns f r -> exists n, f n = r.
Proof. intros [_ [N H]]. exists N. apply H. lia. Qed.
Lemma from_bytes_ok n E t i v : from_bytes n E t i = Ok v -> deser n E t i = Ok (v, []).
Proof. unfold from_bytes. destruct (deser n E t i) as [[v' [|b j]]|e| | |]; try discriminate. cbn. congruence. Qed.
Theorem trailing_bytes E t i k : returns (fun n => from_bytes n E t i) (Err (ETrailingData k)) <->
  exists c s v, i = c ++ s /\ s <> [] /\ k = zlen s /\ returns (fun n => from_bytes n E t c) (Ok v).
Proof.
  split.
  - intros H. apply returns_some in H as [n H]. unfold from_bytes in H. pose proof (steady_deser n E t i []) as S. unfold later in S.
    destruct (deser n E t i) as [[v j]|e| | |] eqn:D; try discriminate; cbn [bind] in H.
    + destruct j as [|b j]; [discriminate|]. injection H as <-. destruct (c10 D) as (c & -> & R). exists c, (b :: j), v. split; [reflexivity|]. split; [discriminate|]. split; [reflexivity|].
      specialize (R []). rewrite app_nil_r in R. apply returns_some in R as [m R]. apply returns_from_bytes with m; [|discriminate]. unfold from_bytes. now rewrite R.
    + injection H as ->. contradiction.
  - intros (c & s & v & -> & N & -> & R). apply returns_some in R as [n R]. apply from_bytes_ok in R. apply returns_from_bytes with n; [|discriminate].
    pose proof (steady_deser n E t c s) as S. unfold later in S. rewrite R in S. destruct S as [S _]. unfold from_bytes. rewrite S. now destruct s.
Qed.
Theorem cut_short E t p q v : returns (fun n => from_bytes n E t (p ++ q)) (Ok v) -> q <> [] ->
  exists k, 0 < k <= zlen q /\ (returns (fun n => from_bytes n E t p) (Err (ENotEnoughData k)) \/
    returns (fun n => from_bytes n E t p) Panic /\ k < 4 /\ (zlen p + k) mod 4 = 0).
Proof.
  intros R Q. apply returns_some in R as [n R]. apply from_bytes_ok in R. pose proof (steady_deser n E t p q) as S. unfold later in S.
  assert (W : forall r, r <> Fuel -> from_bytes n E t p = r -> returns (fun n => from_bytes n E t p) r) by (intros r N H; now apply returns_from_bytes with n).
  unfold from_bytes in W. destruct (deser n E t p) as [[v' j]|e| | |]; cbn [bind] in W.
  - destruct S as [S _]. rewrite R in S. injection S as _ S. symmetry in S. apply app_eq_nil in S as [_ S]. contradiction.
  - destruct e as [| | |k| | |]; try (rewrite R in S; discriminate); [|contradiction]. destruct S as [K S]. exists k. split.
    + split; [exact K|]. destruct (Z_lt_le_dec (zlen q) k) as [L|L]; [|exact L]. rewrite R in S. now specialize (S L).
    + left. now apply W.
  - destruct S as [S|(k & K & M & S)]; [rewrite R in S; discriminate|]. exists k. split.
    + split; [lia|]. destruct (Z_lt_le_dec (zlen q) k) as [L|L]; [|exact L]. rewrite R in S. now specialize (S L).
    + right. split; [now apply W|]. split; [lia|exact M].
  - rewrite R in S. discriminate.
  - rewrite R in S. discriminate.
Qed.
