(** The lemmas behind the theorems of PropsCodec.v. *)
From Verif Require Import Base SpecUtf8 Utf8 Utf8Proofs SerModel RustTypes DeModel SpecXdr SpecTypes
  SpecDecode SpecMisc XdrFacts EncProofs ReadFacts RvalFacts DecProofs CodecProofs TotalProofs
  NormProofs.
Set Implicit Arguments.
Unset Strict Implicit.

(** ** Running the models on concrete values *)

Lemma returns_from_bytes n E t i r : from_bytes n E t i = r -> r <> Fuel ->
  returns (fun n => from_bytes n E t i) r.
Proof.
  intros H N. split; [exact N|]. exists n. intros m Hm. rewrite <- H.
  apply from_bytes_mono; [exact Hm|]. now rewrite H.
Qed.

Lemma returns_deser n E t i r : deser n E t i = r -> r <> Fuel ->
  returns (fun n => deser n E t i) r.
Proof.
  intros H N. split; [exact N|]. exists n. intros m Hm. rewrite <- H.
  apply deser_mono; [exact Hm|]. now rewrite H.
Qed.

Lemma mapM_mono {A B} (f g : A -> res B) l : (forall a, f a <> Fuel -> g a = f a) ->
  mapM f l <> Fuel -> mapM g l = mapM f l.
Proof.
  intros M. induction l as [|a l IH]; intros H; cbn in *; [reflexivity|].
  apply bind_mono; auto. intros b Hb. apply bind_mono; auto.
Qed.

Lemma zipM_mono {A B C} (f g : A -> B -> res C) la lb : (forall a b, f a b <> Fuel -> g a b = f a b) ->
  zipM f la lb <> Fuel -> zipM g la lb = zipM f la lb.
Proof.
  intros M. revert lb. induction la as [|a la IH]; intros [|b lb] H; cbn in *; try reflexivity.
  apply bind_mono; auto. intros c Hc. apply bind_mono; auto.
Qed.

Lemma calls_mono1 n E : forall t v, calls n E t v <> Fuel -> calls (S n) E t v = calls n E t v.
Proof.
  induction n as [|n IH]; intros t v H; [now contradiction H|].
  remember (S n) as m eqn:Em.
  destruct t; rewrite Em in H |- * at 2; cbn [calls] in H |- *; try reflexivity;
    try (apply bind_mono; auto; fail); try (now apply IH);
    try (destruct v; try reflexivity; apply bind_mono; auto;
         first [apply mapM_mono|apply zipM_mono]; auto; fail).
  - destruct v; try reflexivity. apply bind_mono; auto. apply mapM_mono.
    intros [a b] Hab. apply bind_mono; auto. intros x Hx. apply bind_mono; auto.
  - destruct v as [| | | | | | | | | | |i vss]; try reflexivity.
    destruct (nth_error vs i) as [[name [|t|ts|ts]]|]; try reflexivity.
    + destruct vss as [|w [|]]; try reflexivity. apply bind_mono; auto.
    + apply bind_mono; auto. apply zipM_mono; auto.
    + apply bind_mono; auto. apply zipM_mono; auto.
  - destruct v as [| | | | | | | | | | |i vss]; try reflexivity.
    destruct (nth_error vs i) as [[name ts]|]; try reflexivity.
    destruct (assoc String.eqb name index); try reflexivity.
    apply bind_mono; auto. apply zipM_mono; auto.
  - destruct v as [| | | | | | | | | | |i vss]; try reflexivity.
    destruct (nth_error vs i) as [[name [ts|]]|]; try reflexivity.
    apply bind_mono; auto. apply (@zipM_mono _ _ _ (calls n E) (calls m E) (t :: ts) vss); auto.
  - destruct (lookup E name); [|reflexivity]. now apply IH.
Qed.

Lemma calls_mono n m E t v : (n <= m)%nat -> calls n E t v <> Fuel -> calls m E t v = calls n E t v.
Proof.
  induction 1 as [|m _ IH]; intros H; [reflexivity|].
  rewrite <- (IH H). apply calls_mono1. now rewrite IH.
Qed.

Lemma serialize_nofuel s o : serialize s o <> Fuel.
Proof.
  pose proof (serialize_behaves s) as B. destruct (faults s) as [|f l]; cbn in B.
  - destruct B as (b & _ & B). now rewrite B.
  - rewrite B. destruct f; discriminate.
Qed.

Lemma returns_to_bytes n E t v r : to_bytes n E t v = r -> r <> Fuel ->
  returns (fun n => to_bytes n E t v) r.
Proof.
  intros H N. split; [exact N|]. exists n. intros m Hm. rewrite <- H.
  unfold to_bytes in *. apply bind_mono; auto.
  - now apply calls_mono.
  - now rewrite H.
Qed.

Lemma to_bytes_run E t v r : returns (fun n => to_bytes n E t v) r -> exists n, to_bytes n E t v = r.
Proof. intros [_ [N H]]. exists N. auto. Qed.
Lemma from_bytes_run E t v r : returns (fun n => from_bytes n E t v) r -> exists n, from_bytes n E t v = r.
Proof. intros [_ [N H]]. exists N. auto. Qed.

Lemma encodes_run E t v b : encodes E t v b <->
  exists n s, calls n E t v = Ok s /\ forall o, serialize s o = Ok (o ++ b).
Proof.
  split.
  - intros H. apply to_bytes_run in H as [n H]. unfold to_bytes in H.
    apply bind_ok in H as (s & H1 & H2). exists n, s. split; [exact H1|].
    unfold to_bytes_calls in H2. pose proof (serialize_behaves s) as B.
    destruct (faults s) as [|f l]; cbn in B.
    + destruct B as (b' & _ & B). rewrite B in H2. cbn in H2. injection H2 as <-. exact B.
    + rewrite B in H2. destruct f; discriminate.
  - intros (n & s & H1 & H2). apply returns_to_bytes with n; [|discriminate].
    unfold to_bytes. rewrite H1. cbn. apply H2.
Qed.

(** ** C01, C04, C05, C06, C07 *)

Lemma c01 E t v : supported E t v ->
  exists bs, returns (fun n => to_bytes n E t v) (Ok bs) /\
             returns (fun n => from_bytes n E t bs) (Ok v).
Proof.
  intros H. destruct (round_trip H) as (bs & T & A). exists bs. split; [exact T|].
  now apply from_bytes_accepted.
Qed.

Lemma c02 E t v x : denotes false E t v x ->
  exists bs, returns (fun n => to_bytes n E t v) (Ok bs) /\ rfc x bs /\
             (forall bs', rfc x bs' -> bs' = bs).
Proof.
  intros H. destruct (to_bytes_rfc H) as (bs & R & T). exists bs. repeat split; try apply T; auto.
  intros bs' R'. now apply rfc_det with x.
Qed.

Lemma c04 E t v1 v2 bs : supported E t v1 -> supported E t v2 ->
  returns (fun n => to_bytes n E t v1) (Ok bs) ->
  returns (fun n => to_bytes n E t v2) (Ok bs) -> v1 = v2.
Proof.
  intros S1 S2 T1 T2. apply supported_accepts with (bs := bs) in S1, S2; auto.
  destruct (@accepts_det E t v1 v2 bs bs [] [] S1 S2 eq_refl). assumption.
Qed.

Lemma c05_prefix E t v1 v2 b1 b2 r : supported E t v1 -> supported E t v2 ->
  returns (fun n => to_bytes n E t v1) (Ok b1) ->
  returns (fun n => to_bytes n E t v2) (Ok b2) -> b2 = b1 ++ r -> v1 = v2 /\ r = [].
Proof.
  intros S1 S2 T1 T2 ->. apply supported_accepts with (bs := b1) in S1; auto.
  apply supported_accepts with (bs := b1 ++ r) in S2; auto.
  destruct (@accepts_det E t v1 v2 b1 (b1 ++ r) r [] S1 S2); auto. now rewrite app_nil_r.
Qed.

Lemma c05_concat E t v bs r : supported E t v ->
  returns (fun n => to_bytes n E t v) (Ok bs) ->
  returns (fun n => deser n E t (bs ++ r)) (Ok (v, r)).
Proof. intros S T. apply deser_accepted. now apply supported_accepts. Qed.

Lemma c05_tuple E ts vs bs : Forall2 (supported E) ts vs -> encodes_all E ts vs bs ->
  returns (fun n => from_bytes n E (TTuple ts) bs) (Ok (RSeq vs)).
Proof.
  intros S T. apply from_bytes_accepted. constructor.
  induction T as [|t ts v vs b bs T _ IH]; [constructor|].
  inversion S; subst. constructor; [|now apply IH]. now apply supported_accepts.
Qed.

Lemma c06 E t v bs r : supported E t v ->
  returns (fun n => to_bytes n E t v) (Ok bs) -> r <> [] ->
  returns (fun n => from_bytes n E t (bs ++ r)) (Err (ETrailingData (zlen r))).
Proof. intros S T R. apply from_bytes_trailing with v; auto. now apply supported_accepts. Qed.

Lemma c07 E t v p q n v' : supported E t v ->
  returns (fun n => to_bytes n E t v) (Ok (p ++ q)) -> q <> [] ->
  from_bytes n E t p <> Ok v'.
Proof.
  intros S T Q H. apply from_bytes_inv in H. apply supported_accepts in T; auto.
  destruct (@accepts_det E t v' v p (p ++ q) q [] H T); auto. now rewrite app_nil_r.
Qed.

Lemma c08 E t i v n : from_bytes n E t i = Ok v -> zlen i mod 4 = 0.
Proof. intros H. apply from_bytes_inv in H. now apply (proj1 (accepts_aligned E)) in H. Qed.

Lemma c09 E t i n : env_all tables_total E -> tables_total t -> zlen i mod 4 = 0 ->
  from_bytes n E t i <> Panic.
Proof.
  intros TE T Hi. apply bind_nopanic; [now apply deser_nopanic|].
  intros [v r] _. destruct r; discriminate.
Qed.

Lemma c10 E t b v r n : deser n E t b = Ok (v, r) ->
  exists c, b = c ++ r /\ forall r', returns (fun n => deser n E t (c ++ r')) (Ok (v, r')).
Proof.
  intros H. apply deser_accepts in H as (c & -> & A). exists c. split; [reflexivity|].
  intros r'. now apply deser_accepted.
Qed.

(** ** Primitive readers *)

Lemma c03 s bs : to_bytes_calls s = Ok bs -> zlen bs mod 4 = 0.
Proof.
  unfold to_bytes_calls. intros H. pose proof (serialize_behaves s) as B.
  destruct (faults s) as [|f l]; cbn in B.
  - destruct B as (b & A & B). rewrite B in H. cbn in H. now injection H as <-.
  - rewrite B in H. destruct f; discriminate.
Qed.

Lemma c17 s : match faults s with
              | [] => exists bs, to_bytes_calls s = Ok bs
              | f :: _ => to_bytes_calls s = fault_result f
              end.
Proof.
  unfold to_bytes_calls. pose proof (serialize_behaves s) as B.
  destruct (faults s) as [|f l]; cbn in B; [|apply B].
  destruct B as (b & _ & B). exists b. now rewrite B.
Qed.

Lemma c29 s o : serialize s o = match to_bytes_calls s with Ok b => Ok (o ++ b) | r => r end.
Proof.
  unfold to_bytes_calls. pose proof (serialize_behaves s) as B.
  destruct (faults s) as [|f l]; cbn in B.
  - destruct B as (b & _ & B). now rewrite !B.
  - rewrite !B. destruct f; reflexivity.
Qed.

Lemma c11 E s w word z r : w = W8 \/ w = W16 -> unsigned 4 z word ->
  exists z', int_range s w z' /\ (z' - z) mod 2 ^ bits w = 0 /\
    returns (fun n => deser n E (TInt s w) (word ++ r)) (Ok (RInt z', r)) /\
    (forall y, (if s then signed 4 y word else unsigned 4 y word) -> int_range s w y -> z' = y).
Proof.
  intros Hw U.
  set (z' := if s then wrap_s (bits w) z else wrap_u (bits w) z).
  assert (B : 0 < bits w) by (destruct w; cbn; lia).
  assert (R : int_range s w z').
  { unfold z'. destruct s; cbn [int_range].
    - pose proof (@wrap_s_range (bits w) z B) as H. unfold in_s in H. lia.
    - pose proof (@wrap_u_range (bits w) z ltac:(lia)) as H. unfold in_u in H. lia. }
  assert (M : (z' - z) mod 2 ^ bits w = 0).
  { unfold z', wrap_s, wrap_u.
    destruct Hw as [-> | ->]; cbn [bits]; destruct s;
      try destruct (Z.ltb_spec (z mod 2 ^ 8) (2 ^ (8 - 1)));
      try destruct (Z.ltb_spec (z mod 2 ^ 16) (2 ^ (16 - 1)));
      change (2 ^ 8) with 256 in *; change (2 ^ 16) with 65536 in *; lia. }
  exists z'. split; [exact R|]. split; [exact M|]. split.
  - apply deser_accepted. apply ac_int with z; auto.
    + destruct Hw; subst; discriminate.
    + destruct Hw; subst; exact U.
  - intros y Hy Ry. clearbody z'. clear B. destruct U as [L V].
    destruct Hw as [-> | ->]; destruct s; cbn [int_range bits] in *; destruct Hy as [_ Hy];
      try destruct Hy as [[? ?]|[? ?]];
      change (2 ^ 8) with 256 in *; change (2 ^ 16) with 65536 in *;
      change (2 ^ (8 - 1)) with 128 in *; change (2 ^ (16 - 1)) with 32768 in *;
      change (2 ^ (8 * Z.of_nat 4)) with 4294967296 in *; lia.
Qed.

Lemma c12_bool E word z r : unsigned 4 z word ->
  returns (fun n => deser n E TBool (word ++ r)) (Ok (RBool (negb (z =? 0)), r)).
Proof.
  intros U. apply deser_accepted. destruct (Z.eqb_spec z 0) as [->|N]; cbn.
  - now constructor.
  - now apply ac_true with z.
Qed.

Lemma option_run E t word z r n : unsigned 4 z word ->
  deser (S n) E (TOption t) (word ++ r) =
  if z =? 0 then Ok (RNone, r) else '(v, r') <- deser n E t r;; Ok (RSome v, r').
Proof. intros U. cbn [deser]. now rewrite (read_u32_app r U). Qed.

Lemma c12_none E t word r : unsigned 4 0 word ->
  returns (fun n => deser n E (TOption t) (word ++ r)) (Ok (RNone, r)).
Proof. intros U. apply deser_accepted. now constructor. Qed.

Lemma c12_some E t word z r v r' : unsigned 4 z word -> z <> 0 ->
  returns (fun n => deser n E (TOption t) (word ++ r)) (Ok (v, r')) <->
  exists w, v = RSome w /\ returns (fun n => deser n E t r) (Ok (w, r')).
Proof.
  intros U N. split.
  - intros [_ [M H]]. specialize (H (S M) ltac:(lia)). rewrite (option_run _ _ _ _ U) in H.
    destruct (Z.eqb_spec z 0); [contradiction|]. apply bind_ok in H as ([w r''] & H1 & H2).
    injection H2 as <- <-. exists w. split; [reflexivity|]. now apply returns_deser with M.
  - intros (w & -> & _ & [M H]). apply returns_deser with (S M); [|discriminate].
    rewrite (option_run _ _ _ _ U). destruct (Z.eqb_spec z 0); [contradiction|].
    now rewrite H.
Qed.

Lemma c12_written E t v b : encodes E t v b ->
  match t with TBool | TOption _ => True | _ => False end ->
  exists w r, b = w ++ r /\ (unsigned 4 0 w \/ unsigned 4 1 w).
Proof.
  intros H K. apply encodes_run in H as (n & s & H1 & H2). specialize (H2 []). cbn in H2.
  assert (W0 : unsigned 4 0 (be_bytes 4 0)) by (split; reflexivity).
  assert (W1 : unsigned 4 1 (be_bytes 4 1)) by (split; reflexivity).
  destruct n; [discriminate|].
  destruct t; try contradiction; destruct v; try discriminate.
  - injection H1 as <-. cbn in H2. injection H2 as <-.
    exists (be_bytes 4 (if b0 then 1 else 0)), []. rewrite app_nil_r. split; [reflexivity|].
    destruct b0; auto.
  - injection H1 as <-. cbn in H2. injection H2 as <-.
    exists (be_bytes 4 0), []. rewrite app_nil_r. auto.
  - cbn [calls] in H1. apply bind_ok in H1 as (s' & _ & H1). injection H1 as <-.
    cbn [serialize] in H2. unfold serialize_u32 in H2. cbn [bind] in H2. rewrite c29 in H2.
    destruct (to_bytes_calls s') as [x| | | |]; try discriminate. injection H2 as <-.
    exists (be_bytes 4 1), x. auto.
Qed.

Lemma c14 E i s : returns (fun n => from_bytes n E TStr i) (Ok (RStr s)) <->
  exists n p, i = n ++ s ++ p /\ unsigned 4 (zlen s) n /\ any_pad (zlen s) p /\ valid_utf8 s.
Proof.
  split.
  - intros H. apply from_bytes_run in H as [k H]. apply from_bytes_inv in H.
    inversion H; subst. eauto 7.
  - intros (n & p & -> & U & P & V). apply from_bytes_accepted. now constructor.
Qed.

Lemma c14_invalid E n s r : unsigned 4 (zlen s) n -> ~ valid_utf8 s ->
  returns (fun k => from_bytes k E TStr (n ++ s ++ r)) (Err EEncoding).
Proof.
  intros U V. apply returns_from_bytes with 1%nat; [|discriminate].
  unfold from_bytes. cbn [deser]. unfold read_string. rewrite (read_u32_app _ U). cbn [bind].
  rewrite read_app by reflexivity. cbn [bind].
  destruct (utf8_ok s) eqn:K; [|reflexivity]. apply utf8_ok_spec in K. contradiction.
Qed.

Lemma c15 E w z r : unsigned 4 z w ->
  (is_scalar z -> returns (fun n => deser n E TChar (w ++ r)) (Ok (RChar z, r))) /\
  (~ is_scalar z -> returns (fun n => deser n E TChar (w ++ r)) (Err EConvert)).
Proof.
  intros U. split; intros S.
  - apply deser_accepted. now constructor.
  - apply returns_deser with 1%nat; [|discriminate]. cbn [deser]. unfold read_char.
    rewrite (read_u32_app r U). cbn [bind].
    destruct (char_ok z) eqn:K; [|reflexivity]. apply char_ok_spec in K. contradiction.
Qed.

Lemma variant_index_run k w z r : signed 4 z w ->
  de_variant_index k (w ++ r) =
  if z <? 0 then Err EConvert
  else if z <? Z.of_nat k then Ok (Z.to_nat z, r) else Err (ECustom (MInvalidVariant z)).
Proof. intros S. unfold de_variant_index. now rewrite (read_i32_app r S). Qed.

Lemma c16_negative E vss w z r : signed 4 z w -> z < 0 ->
  returns (fun n => deser n E (TEnum vss) (w ++ r)) (Err EConvert).
Proof.
  intros S H. apply returns_deser with 1%nat; [|discriminate]. cbn [deser].
  rewrite (variant_index_run _ _ S). destruct (Z.ltb_spec z 0); [reflexivity|lia].
Qed.

Lemma c16_unknown E vss w z r : signed 4 z w -> Z.of_nat (length vss) <= z ->
  returns (fun n => deser n E (TEnum vss) (w ++ r)) (Err (ECustom (MInvalidVariant z))).
Proof.
  intros S H. apply returns_deser with 1%nat; [|discriminate]. cbn [deser].
  rewrite (variant_index_run _ _ S). destruct (Z.ltb_spec z 0); [lia|].
  destruct (Z.ltb_spec z (Z.of_nat (length vss))); [lia|reflexivity].
Qed.

Lemma c16_selected E vss w z r n v r' : signed 4 z w ->
  deser n E (TEnum vss) (w ++ r) = Ok (v, r') ->
  0 <= z < Z.of_nat (length vss) /\ exists vs, v = RVariant (Z.to_nat z) vs.
Proof.
  intros S H. destruct n; [discriminate|]. cbn [deser] in H. rewrite (variant_index_run _ _ S) in H.
  destruct (Z.ltb_spec z 0); [discriminate|].
  destruct (Z.ltb_spec z (Z.of_nat (length vss))); [|discriminate]. split; [lia|].
  cbn [bind] in H. destruct (nth_error vss (Z.to_nat z)) as [[name [|t|ts|ts]]|]; try discriminate.
  - injection H as <- <-. eauto.
  - apply bind_ok in H as ([x y] & _ & H). injection H as <- <-. eauto.
  - apply bind_ok in H as ([x y] & _ & H). injection H as <- <-. eauto.
  - apply bind_ok in H as ([x y] & _ & H). injection H as <- <-. eauto.
Qed.

Lemma c16_unit E vss w i name r : Z.of_nat i < 2 ^ 31 -> signed 4 (Z.of_nat i) w ->
  nth_error vss i = Some (name, VUnit) ->
  returns (fun n => deser n E (TEnum vss) (w ++ r)) (Ok (RVariant i [], r)).
Proof.
  intros L S H. apply deser_accepted. apply ac_unit_variant with name; auto.
  destruct S as [Lw [[? ?]|[? ?]]]; [now split|lia].
Qed.

(** ** C18 *)

Lemma big_len {A} (a : A) : exists k, zlen (repeat a k) = 2 ^ 32.
Proof.
  exists (Z.to_nat (2 ^ 32)). unfold zlen. rewrite repeat_length. apply Z2Nat.id. lia.
Qed.

Lemma c18_bytes : exists bs out, returns (fun n => to_bytes n [] TByteBuf (RBytes bs)) (Ok out) /\
  nval (firstn 4 out) <> zlen bs.
Proof.
  destruct (big_len x00) as [k H]. set (bs := repeat x00 k) in *. clearbody bs.
  exists bs. eexists. split.
  - apply encodes_run. exists 1%nat. eexists. split; [reflexivity|].
    intros o. cbn [serialize]. unfold serialize_bytes. rewrite H.
    change (4 - 2 ^ 32 mod 4 <? 4) with false. cbv iota. cbn [bind serialize_u32].
    rewrite <- app_assoc. reflexivity.
  - rewrite firstn_app. rewrite H.
    replace (nval _) with 0; [lia|]. vm_compute. reflexivity.
Qed.

Lemma foldM_units k o : foldM serialize (repeat SUnit k) o = Ok o.
Proof. induction k as [|k IH]; cbn; auto. Qed.

Lemma mapM_units n E k : mapM (calls (S n) E TUnit) (repeat RUnit k) = Ok (repeat SUnit k).
Proof. induction k as [|k IH]; cbn [repeat mapM]; [reflexivity|]. rewrite IH. reflexivity. Qed.

Lemma c18_seq : exists v1 v2 out, v1 <> v2 /\
  returns (fun n => to_bytes n [] (TSeq TUnit) v1) (Ok out) /\
  returns (fun n => to_bytes n [] (TSeq TUnit) v2) (Ok out).
Proof.
  destruct (big_len RUnit) as [k H].
  exists (RSeq (repeat RUnit k)), (RSeq []), (be_bytes 4 0). split; [|split].
  - intros K. injection K as K. rewrite K in H. discriminate.
  - apply encodes_run. exists 2%nat, (SSeq (Some (zlen (repeat RUnit k))) (repeat SUnit k)). split.
    + change (calls 2 [] (TSeq TUnit) (RSeq (repeat RUnit k))) with
        (l <- mapM (calls 1 [] TUnit) (repeat RUnit k);; Ok (SSeq (Some (zlen (repeat RUnit k))) l)).
      now rewrite mapM_units.
    + intros o. rewrite H. cbn [serialize]. unfold serialize_len, serialize_u32. cbn [bind].
      rewrite foldM_units. reflexivity.
  - apply returns_to_bytes with 2%nat; [reflexivity|discriminate].
Qed.

Lemma ok_sym {A} (a b : A) : Ok a = Ok b -> b = a.
Proof. congruence. Qed.

Lemma wrap32 z : 0 <= z < 2 ^ 32 -> wrap_u 32 z = z.
Proof. intros H. unfold wrap_u. now apply Z.mod_small. Qed.

Lemma c18_fits E t v b k : encodes E t v b -> wire_len t v = Some k -> k < 2 ^ 32 ->
  exists w r, b = w ++ r /\ unsigned 4 k w.
Proof.
  intros H W L. apply encodes_run in H as (n & s & H1 & H2). specialize (H2 []). cbn [app] in H2.
  assert (U : forall k, 0 <= k < 2 ^ 32 -> unsigned 4 k (be_bytes 4 (wrap_u 32 k))).
  { intros j Hj. rewrite wrap32 by exact Hj. apply unsigned_be. exact Hj. }
  destruct n; [discriminate|].
  destruct t; try discriminate; destruct v; try discriminate; cbn in W; injection W as <-;
    cbn [calls] in H1.
  - injection H1 as <-. cbn [serialize] in H2. unfold serialize_str, serialize_bytes, serialize_u32 in H2.
    cbn [bind app] in H2. exists (be_bytes 4 (wrap_u 32 (zlen bs))).
    destruct (4 - zlen bs mod 4 <? 4); injection H2 as <-; rewrite <- ?app_assoc;
      (eexists; split; [reflexivity|]; apply U; split; [apply zlen_nonneg|exact L]).
  - injection H1 as <-. cbn [serialize] in H2. unfold serialize_str, serialize_bytes, serialize_u32 in H2.
    cbn [bind app] in H2. exists (be_bytes 4 (wrap_u 32 (zlen bs))).
    destruct (4 - zlen bs mod 4 <? 4); injection H2 as <-; rewrite <- ?app_assoc;
      (eexists; split; [reflexivity|]; apply U; split; [apply zlen_nonneg|exact L]).
  - apply bind_ok in H1 as (l & _ & H1). injection H1 as <-.
    change (serialize (SSeq (Some (zlen vs)) l) [])
      with (foldM serialize l (be_bytes 4 (wrap_u 32 (zlen vs)))) in H2.
    change (foldM serialize l) with (serialize (STuple l)) in H2. rewrite c29 in H2.
    destruct (to_bytes_calls (STuple l)); try discriminate. apply ok_sym in H2.
    eexists _, _. split; [exact H2|]. apply U. split; [apply zlen_nonneg|exact L].
  - apply bind_ok in H1 as (l & _ & H1). injection H1 as <-.
    change (serialize (SMap (Some (zlen kvs)) l) [])
      with (foldM (fun '(k, v) o => o' <- serialize k o;; serialize v o') l (be_bytes 4 (wrap_u 32 (zlen kvs)))) in H2.
    assert (B : behaves (foldM (fun '(k, v) o => o' <- serialize k o;; serialize v o') l)
                  (flat_map (fun '(k, v) => faults k ++ faults v) l)).
    { apply behaves_fold. apply Forall_forall. intros [a c] _.
      apply behaves_bind with (r1 := serialize a); apply serialize_behaves. }
    destruct (flat_map (fun '(k, v) => faults k ++ faults v) l) as [|f fl]; cbn in B.
    + destruct B as (x & _ & B). rewrite B in H2. apply ok_sym in H2.
      eexists _, _. split; [exact H2|]. apply U. split; [apply zlen_nonneg|exact L].
    + rewrite B in H2. destruct f; discriminate.
  - injection H1 as <-. unfold calls_opaque_variable in H2.
    change (serialize (SSeq (Some (zlen bs)) (map SU32 (enumerate_u32 bs))) [])
      with (foldM serialize (map SU32 (enumerate_u32 bs)) (be_bytes 4 (wrap_u 32 (zlen bs)))) in H2.
    change (foldM serialize (map SU32 (enumerate_u32 bs)))
      with (serialize (STuple (map SU32 (enumerate_u32 bs)))) in H2. rewrite c29 in H2.
    destruct (to_bytes_calls (STuple (map SU32 (enumerate_u32 bs)))); try discriminate. apply ok_sym in H2.
    eexists _, _. split; [exact H2|]. apply U. split; [apply zlen_nonneg|exact L].
Qed.

(** ** C19 *)

Lemma opaque_words buf : exists p, zero_pad (zlen buf) p /\
  forall o, foldM serialize (map SU32 (enumerate_u32 buf)) o = Ok (o ++ buf ++ p).
Proof.
  pose proof (@to_bytes_rfc false [] (TOpaqueFixed (length buf)) (RBytes buf) (XFOpaque buf)
                (@dn_fopaque false [] (length buf) buf eq_refl)) as (bs & R & T).
  inversion R; subst. exists p. split; [assumption|].
  apply encodes_run in T as (n & s & H1 & H2). destruct n; [discriminate|].
  injection H1 as <-. exact H2.
Qed.

Lemma c19_variable bs o : serialize (calls_opaque_variable bs) o = serialize_bytes bs o.
Proof.
  destruct (opaque_words bs) as (p & (M & L & Zp) & H). unfold calls_opaque_variable.
  change (serialize (SSeq (Some (zlen bs)) (map SU32 (enumerate_u32 bs))) o)
    with (foldM serialize (map SU32 (enumerate_u32 bs)) (o ++ be_bytes 4 (wrap_u 32 (zlen bs)))).
  rewrite H. unfold serialize_bytes, serialize_u32. cbn [bind]. f_equal.
  rewrite (zeros_repeat p Zp). pose proof (zlen_nonneg p). pose proof (zlen_nonneg bs).
  unfold zlen in L, M.
  destruct (Z.ltb_spec (4 - zlen bs mod 4) 4) as [K|K]; unfold zlen in K.
  - replace (Z.to_nat (4 - zlen bs mod 4)) with (length p) by (unfold zlen; lia).
    now rewrite !app_assoc.
  - replace (length p) with O by lia. cbn [repeat]. now rewrite app_nil_r.
Qed.

Lemma c19_fixed bs : exists p, zero_pad (zlen bs) p /\
  forall o, serialize (calls_opaque_fixed bs) o = Ok (o ++ bs ++ p).
Proof. exact (opaque_words bs). Qed.

Lemma c19_read_variable E n bs p r : unsigned 4 (zlen bs) n -> any_pad (zlen bs) p ->
  returns (fun k => deser k E TOpaqueVar (n ++ bs ++ p ++ r)) (Ok (RBytes bs, r)).
Proof.
  intros U P. replace (n ++ bs ++ p ++ r) with ((n ++ bs ++ p) ++ r) by now rewrite <- !app_assoc.
  apply deser_accepted. now constructor.
Qed.

Lemma c19_read_fixed E bs p r : any_pad (zlen bs) p ->
  returns (fun k => deser k E (TOpaqueFixed (length bs)) (bs ++ p ++ r)) (Ok (RBytes bs, r)) /\
  zlen (bs ++ p) = 4 * ((zlen bs + 3) / 4).
Proof.
  intros P. split.
  - rewrite app_assoc. apply deser_accepted. now constructor.
  - destruct P as [P1 P2]. rewrite zlen_app. pose proof (zlen_nonneg p). lia.
Qed.

(** ** C20 *)

Lemma c20_refuted : exists i, zlen i = 4 /\ alloc_opaque_variable i = 2 ^ 32 - 1.
Proof. exists [xff; xff; xff; xff]. split; reflexivity. Qed.

Lemma c20_bytes i : alloc_read_bytes i <= zlen i.
Proof.
  unfold alloc_read_bytes. pose proof (zlen_nonneg i).
  destruct (read_u32 i) as [[z j]| | | |] eqn:R; try lia.
  apply read_u32_inv in R as (w & -> & U). pose proof (unsigned_range U).
  destruct (read_cases j (k := z)) as [(a & r & -> & L & ->)|[_ ->]]; [lia| |lia].
  rewrite !zlen_app. pose proof (zlen_nonneg w). pose proof (zlen_nonneg r). lia.
Qed.

(** ** C21 *)

Lemma c21_seq E t i n vs : occupies E t -> from_bytes n E (TSeq t) i = Ok (RSeq vs) ->
  4 * (1 + zlen vs) <= zlen i.
Proof.
  intros O H. apply from_bytes_inv in H. inversion H; subst.
  match goal with A : accepts_all _ _ _ _ |- _ => pose proof (@accepts_all_count _ _ _ _ _ O A) end.
  match goal with U : unsigned _ _ _ |- _ => apply unsigned_len in U end.
  rewrite zlen_app. unfold zlen in *. lia.
Qed.

Lemma c21_promise E t w k r n v : occupies E t -> unsigned 4 k w -> zlen r < 4 * k ->
  from_bytes n E (TSeq t) (w ++ r) <> Ok v.
Proof.
  intros O U L H. apply from_bytes_inv in H. inversion H; subst.
  match goal with A : accepts_all _ _ _ _ |- _ => pose proof (@accepts_all_count _ _ _ _ _ O A) end.
  assert (n0 = w /\ bs = r) as [-> ->].
  { apply app_eq_app in H1. destruct U as [Lw _].
    match goal with U : unsigned _ _ n0 |- _ => destruct U as [Ln _] end.
    destruct H1 as (l & [[E1 E2]|[E1 E2]]); destruct l; cbn in *;
      rewrite ?app_nil_r in *; auto; exfalso; apply (f_equal (@length _)) in E1;
      rewrite app_length in E1; cbn in E1; lia. }
  match goal with U' : unsigned _ (zlen vs) w |- _ => destruct U' as [_ V] end.
  destruct U as [_ V']. unfold zlen in *. lia.
Qed.

Lemma last_wins_len kvs m : last_wins kvs m -> zlen m <= zlen kvs.
Proof.
  induction 1 as [|kvs m k v _ IH Hn|kvs m1 k v v' m2 H IH]; rewrite ?zlen_app, ?zlen_cons in *;
    change (zlen (@nil (rval * rval))) with 0 in *; lia.
Qed.

Lemma accepts_all_cons_inv E t ts v vs b : accepts_all E (t :: ts) (v :: vs) b ->
  exists b1 b2, b = b1 ++ b2 /\ accepts E t v b1 /\ accepts_all E ts vs b2.
Proof. intros H. inversion H; subst. eauto 6. Qed.

Lemma pairs_count E tk tv kvs bs : occupies E tk \/ occupies E tv ->
  accepts_all E (flat_map (fun _ => [tk; tv]) kvs)
                (flat_map (fun '(k, v) => [k; v]) kvs) bs -> 4 * zlen kvs <= zlen bs.
Proof.
  intros O. revert bs. induction kvs as [|[k v] kvs IH]; intros bs A; cbn in A.
  - unfold zlen. cbn. lia.
  - apply accepts_all_cons_inv in A as (b1 & c & -> & A1 & A).
    apply accepts_all_cons_inv in A as (b2 & c' & -> & A2 & A).
    apply IH in A. rewrite !zlen_app, zlen_cons.
    pose proof (zlen_nonneg b1). pose proof (zlen_nonneg b2).
    destruct O as [O|O]; [apply (occupies_min O) in A1|apply (occupies_min O) in A2]; lia.
Qed.

Lemma c21_map E tk tv i n m : occupies E tk \/ occupies E tv ->
  from_bytes n E (TMap tk tv) i = Ok (RMap m) -> 4 * (1 + zlen m) <= zlen i.
Proof.
  intros O H. apply from_bytes_inv in H. inversion H; subst.
  match goal with A : accepts_all _ _ _ _ |- _ => pose proof (pairs_count O A) end.
  match goal with U : unsigned _ _ _ |- _ => apply unsigned_len in U end.
  match goal with L : last_wins _ _ |- _ => apply last_wins_len in L end.
  rewrite zlen_app. lia.
Qed.

(** ** C22 *)

Lemma assoc_app {B} k (a b : list (rval * B)) :
  assoc rval_eqb k (a ++ b) = match assoc rval_eqb k a with Some v => Some v | None => assoc rval_eqb k b end.
Proof.
  induction a as [|[k' v] a IH]; cbn; [reflexivity|]. destruct (rval_eqb k k'); auto.
Qed.

Lemma assoc_none {B} k (a : list (rval * B)) : ~ In k (map fst a) -> assoc rval_eqb k a = None.
Proof.
  induction a as [|[k' v] a IH]; cbn; [reflexivity|]. intros H.
  rewrite rval_eqb_neq by (intros ->; apply H; now left). apply IH. tauto.
Qed.

Lemma last_wins_assoc kvs m : last_wins kvs m ->
  forall k, assoc rval_eqb k m = assoc rval_eqb k (rev kvs).
Proof.
  induction 1 as [|kvs m k v H IH Hn|kvs m1 k v v' m2 H IH]; intros q; [reflexivity| |].
  - rewrite rev_app_distr. cbn. rewrite assoc_app, IH. cbn.
    destruct (rval_eqb q k) eqn:K.
    + apply rval_eqb_spec in K. subst q. rewrite <- IH, (assoc_none Hn). reflexivity.
    + destruct (assoc rval_eqb q (rev kvs)); reflexivity.
  - rewrite rev_app_distr. cbn. rewrite assoc_app. cbn. specialize (IH q). rewrite assoc_app in IH. cbn in IH.
    destruct (rval_eqb q k) eqn:K.
    + apply rval_eqb_spec in K. subst q. apply last_wins_nodup in H. rewrite map_app in H. cbn in H.
      apply NoDup_remove_2 in H. rewrite assoc_none; [reflexivity|].
      intros I. apply H. apply in_or_app. now left.
    + exact IH.
Qed.

Lemma c22 E tk tv i n m : from_bytes n E (TMap tk tv) i = Ok (RMap m) ->
  exists w kvs bs, i = w ++ bs /\ unsigned 4 (zlen kvs) w /\
    accepts_all E (flat_map (fun _ => [tk; tv]) kvs)
                  (flat_map (fun '(k, v) => [k; v]) kvs) bs /\
    NoDup (map fst m) /\
    forall k, assoc rval_eqb k m = assoc rval_eqb k (rev kvs).
Proof.
  intros H. apply from_bytes_inv in H. inversion H; subst.
  eexists _, _, _. split; [reflexivity|]. split; [eassumption|]. split; [eassumption|].
  split; [now apply last_wins_nodup in H6|]. now apply last_wins_assoc.
Qed.

(** ** C23 *)

Lemma c23_write E asr tf d i z : nth_error asr i = Some z -> i32_range z ->
  exists w, signed 4 z w /\ encodes E (TSigned32 asr tf d) (RVariant i []) w.
Proof.
  intros H R. destruct (@c02 E (TSigned32 asr tf d) (RVariant i []) (XEnum z)) as (bs & T & F & _).
  - econstructor; eauto. discriminate.
  - inversion F; subst. eauto.
Qed.

Lemma c23_read E asr tf d w z r : signed 4 z w ->
  returns (fun n => deser n E (TSigned32 asr tf d) (w ++ r))
    match with_dflt (assoc Z.eqb z tf) d with
    | DVal k => Ok (RVariant k [], r)
    | DErr => Err (ECustom (MCannotConvert z))
    | DPanic => Panic
    end.
Proof.
  intros S. apply returns_deser with 1%nat.
  - cbn [deser]. rewrite (read_i32_app r S). reflexivity.
  - destruct (with_dflt (assoc Z.eqb z tf) d); discriminate.
Qed.

Lemma c23_inverse E asr tf d i : signed32_inverse asr tf d -> (i < length asr)%nat ->
  exists bs, returns (fun n => to_bytes n E (TSigned32 asr tf d) (RVariant i [])) (Ok bs) /\
             returns (fun n => from_bytes n E (TSigned32 asr tf d) bs) (Ok (RVariant i [])).
Proof.
  intros [I _] L. apply c01. destruct (nth_error asr i) as [z|] eqn:H.
  - destruct (I _ _ H). exists (XEnum z). econstructor; eauto.
  - apply nth_error_None in H. lia.
Qed.

(** ** C24, C25 *)

Lemma denotes_all_encodes R E ts vs xs : denotes_all R E ts vs xs ->
  forall b, rfcs xs b -> encodes_all E ts vs b.
Proof.
  induction 1 as [|t ts v vs x xs D Ds IH]; intros b F; inversion F as [|x' l b1 b2 F1 F2]; subst; constructor; auto.
  destruct (to_bytes_rfc D) as (b' & F' & T'). now rewrite (rfc_det F1 F').
Qed.

Lemma rfc_union_inv d a b : rfc (XUnion d a) b -> exists b1 b2, b = b1 ++ b2 /\ rfc d b1 /\ rfc a b2.
Proof. intros H. inversion H; subst. eauto 6. Qed.

Lemma c24 E vss index names d i name ts vs z :
  NoDup (map fst vss) -> nth_error vss i = Some (name, ts) ->
  assoc String.eqb name index = Some z -> i32_range z ->
  with_dflt (assoc Z.eqb z names) d = DVal name -> (length ts <= 9)%nat ->
  Forall2 (supported E) ts vs ->
  exists w bs, signed 4 z w /\ encodes_all E ts vs bs /\
    encodes E (TIndexer vss index names d) (RVariant i vs) (w ++ bs) /\
    returns (fun n => from_bytes n E (TIndexer vss index names d) (w ++ bs)) (Ok (RVariant i vs)).
Proof.
  intros N Hn Ha Hr Hd L S.
  assert (exists xs, denotes_all true E ts vs xs) as [xs D].
  { clear L Hn. induction S as [|t v ts vs [x D] _ [xs IH]]; [exists []; constructor|].
    exists (x :: xs). now constructor. }
  assert (D' : denotes true E (TIndexer vss index names d) (RVariant i vs) (XUnion (XInt z) (XStruct xs))).
  { econstructor; eauto. }
  destruct (to_bytes_rfc D') as (b & F & T).
  pose proof (denotes_accepts D' F) as A.
  apply rfc_union_inv in F as (b1 & b2 & -> & F1 & F2).
  inversion F1; subst. apply rfc_struct_inv in F2.
  exists b1, b2. split; [assumption|]. split; [now apply (denotes_all_encodes D)|]. split; [exact T|].
  now apply from_bytes_accepted.
Qed.

Lemma c25 E vss disc names d i name ts v vs :
  NoDup (map fst vss) -> nth_error vss i = Some (name, Some ts) ->
  with_dflt (assoc rval_eqb v names) d = DVal name -> (length ts <= 9)%nat ->
  supported E disc v -> Forall2 (supported E) ts vs ->
  exists w bs, encodes E disc v w /\ encodes_all E ts vs bs /\
    encodes E (TUnion vss disc names d) (RVariant i (v :: vs)) (w ++ bs) /\
    returns (fun n => from_bytes n E (TUnion vss disc names d) (w ++ bs)) (Ok (RVariant i (v :: vs))).
Proof.
  intros N Hn Hd L [x Dx] S.
  assert (exists xs, denotes_all true E ts vs xs) as [xs D].
  { clear L Hn. induction S as [|t v' ts vs [x' D'] _ [xs IH]]; [exists []; constructor|].
    exists (x' :: xs). now constructor. }
  assert (D' : denotes true E (TUnion vss disc names d) (RVariant i (v :: vs)) (XUnion x (XStruct xs))).
  { econstructor; eauto. }
  destruct (to_bytes_rfc D') as (b & F & T).
  pose proof (denotes_accepts D' F) as A.
  apply rfc_union_inv in F as (b1 & b2 & -> & F1 & F2). apply rfc_struct_inv in F2.
  exists b1, b2. split; [|split; [|split]].
  - destruct (to_bytes_rfc Dx) as (b' & F' & T'). now rewrite (rfc_det F1 F').
  - now apply (denotes_all_encodes D).
  - exact T.
  - now apply from_bytes_accepted.
Qed.

(** ten fields: written but not readable *)
Lemma c24_refuted : exists vss index names d i name z ts vs bs,
  indexer_inverse vss index names d /\
  nth_error vss i = Some (name, ts) /\ assoc String.eqb name index = Some z /\
  Forall2 (supported []) ts vs /\
  encodes [] (TIndexer vss index names d) (RVariant i vs) bs /\
  returns (fun n => from_bytes n [] (TIndexer vss index names d) bs) Panic.
Proof.
  exists [("A"%string, repeat TBool 10)], [("A"%string, 1)], [(1, "A"%string)], DErr, O, "A"%string, 1,
    (repeat TBool 10), (repeat (RBool true) 10), (concat (repeat (be_bytes 4 1) 11)).
  split; [|split; [|split; [|split; [|split]]]].
  - split; [repeat constructor; cbn; tauto|]. intros name b [K|[]]. injection K as <- <-.
    exists 1. repeat split; reflexivity || (cbn; lia).
  - reflexivity.
  - reflexivity.
  - cbn. repeat constructor; eexists; constructor.
  - apply returns_to_bytes with 3%nat; [vm_compute; reflexivity|discriminate].
  - apply returns_from_bytes with 3%nat; [vm_compute; reflexivity|discriminate].
Qed.

Lemma c25_refuted : exists vss disc names d i name ts v vs bs,
  NoDup (map fst vss) /\ nth_error vss i = Some (name, Some ts) /\
  with_dflt (assoc rval_eqb v names) d = DVal name /\
  supported [] disc v /\ Forall2 (supported []) ts vs /\
  encodes [] (TUnion vss disc names d) (RVariant i (v :: vs)) bs /\
  returns (fun n => from_bytes n [] (TUnion vss disc names d) bs) Panic.
Proof.
  exists [("A"%string, Some (repeat TBool 10))], (TInt true W32), [(RInt 1, "A"%string)], DErr, O, "A"%string,
    (repeat TBool 10), (RInt 1), (repeat (RBool true) 10), (concat (repeat (be_bytes 4 1) 11)).
  split; [|split; [|split; [|split; [|split; [|split]]]]].
  - repeat constructor; cbn; tauto.
  - reflexivity.
  - reflexivity.
  - exists (XInt 1). constructor; [cbn; lia|reflexivity].
  - cbn. repeat constructor; eexists; constructor.
  - apply returns_to_bytes with 3%nat; [vm_compute; reflexivity|discriminate].
  - apply returns_from_bytes with 3%nat; [vm_compute; reflexivity|discriminate].
Qed.

Lemma c09_refuted : exists t i, returns (fun n => from_bytes n [] t i) Panic.
Proof.
  exists TStr, [x00; x00; x00; x01; x61].
  apply returns_from_bytes with 1%nat; [vm_compute; reflexivity|discriminate].
Qed.

(** ** C26 *)

Lemma zip_calls E ts vs b : encodes_all E ts vs b ->
  exists n ss, zipM (calls n E) ts vs = Ok ss /\ forall o, foldM serialize ss o = Ok (o ++ b).
Proof.
  induction 1 as [|t ts v vs b bs H _ (n & ss & IH1 & IH2)].
  - exists O, []. split; [reflexivity|]. intros o. cbn. now rewrite app_nil_r.
  - apply encodes_run in H as (m & s & H1 & H2).
    exists (Nat.max m n), (s :: ss). split.
    + cbn [zipM]. rewrite (@calls_mono m); [|lia|now rewrite H1]. rewrite H1. cbn [bind].
      rewrite (@zipM_mono _ _ _ (calls n E) (calls (Nat.max m n) E)); [now rewrite IH1| |now rewrite IH1].
      intros a c K. apply calls_mono; [lia|exact K].
    + intros o. cbn. rewrite H2. cbn. rewrite IH2. now rewrite app_assoc.
Qed.

Lemma c26_newtype E t v b : encodes E t v b -> encodes E (TNewtype t) v b.
Proof.
  intros H. apply encodes_run in H as (n & s & H1 & H2). apply encodes_run.
  exists (S n), (SNewtypeStruct s). cbn [calls]. rewrite H1. auto.
Qed.

Lemma c26_box E t v b : encodes E t v b -> encodes E (TBox t) v b.
Proof.
  intros H. apply encodes_run in H as (n & s & H1 & H2). apply encodes_run.
  exists (S n), s. auto.
Qed.

Lemma c26_unit E : encodes E TUnit RUnit [] /\ encodes E TUnitStruct RUnit [].
Proof. split; (apply returns_to_bytes with 1%nat; [reflexivity|discriminate]). Qed.

Lemma c26_tuple E ts vs b : encodes_all E ts vs b -> encodes E (TTuple ts) (RSeq vs) b.
Proof.
  intros H. apply zip_calls in H as (n & ss & H1 & H2). apply encodes_run.
  exists (S n), (STuple ss). cbn [calls]. rewrite H1. auto.
Qed.
Lemma c26_tuple_struct E ts vs b : encodes_all E ts vs b -> encodes E (TTupleStruct ts) (RSeq vs) b.
Proof.
  intros H. apply zip_calls in H as (n & ss & H1 & H2). apply encodes_run.
  exists (S n), (STupleStruct ss). cbn [calls]. rewrite H1. auto.
Qed.
Lemma c26_struct E ts vs b : encodes_all E (map snd ts) vs b -> encodes E (TStruct ts) (RSeq vs) b.
Proof.
  intros H. apply zip_calls in H as (n & ss & H1 & H2). apply encodes_run.
  exists (S n), (SStruct ss). cbn [calls]. rewrite H1. auto.
Qed.

Lemma zip_repeat n E t k vs ss : zipM (calls n E) (repeat t k) vs = Ok ss -> mapM (calls n E t) vs = Ok ss.
Proof.
  revert vs ss. induction k as [|k IH]; intros [|v vs] ss H; cbn in *; try discriminate; [exact H|].
  apply bind_ok in H as (s & H1 & H). apply bind_ok in H as (ss' & H2 & H). rewrite H1. cbn.
  now rewrite (IH _ _ H2).
Qed.

Lemma c26_array E k t vs b : encodes_all E (repeat t k) vs b -> encodes E (TArray k t) (RSeq vs) b.
Proof.
  intros H. apply zip_calls in H as (n & ss & H1 & H2). apply encodes_run.
  exists (S n), (STuple ss). cbn [calls]. rewrite (zip_repeat H1). auto.
Qed.

Lemma variant_word i o : Z.of_nat i < 2 ^ 31 ->
  serialize_variant_index (Z.of_nat i) o = Ok (o ++ be_bytes 4 (Z.of_nat i)).
Proof. intros H. unfold serialize_variant_index. destruct (Z.ltb_spec (Z.of_nat i) (2 ^ 31)); [reflexivity|lia]. Qed.

Lemma c26_variant E vss i name sh ts vs b : nth_error vss i = Some (name, sh) -> Z.of_nat i < 2 ^ 31 ->
  ts = match sh with VUnit => [] | VNewtype t => [t] | VTuple ts => ts | VStruct ts => map snd ts end ->
  encodes_all E ts vs b ->
  exists w, unsigned 4 (Z.of_nat i) w /\ encodes E (TEnum vss) (RVariant i vs) (w ++ b).
Proof.
  intros Hn L Hts H. exists (be_bytes 4 (Z.of_nat i)). split; [apply unsigned_be; cbn; lia|].
  apply encodes_run. destruct sh as [|t|ts'|ts']; subst ts.
  - inversion H; subst. exists 1%nat, (SUnitVariant (Z.of_nat i)). cbn [calls]. rewrite Hn.
    split; [reflexivity|]. intros o. cbn [serialize]. rewrite (variant_word _ L). now rewrite app_nil_r.
  - inversion H as [|t' ts' v vs' b1 b2 He Hs]; subst. inversion Hs; subst.
    apply encodes_run in He as (n & s & H1 & H2).
    exists (S n), (SNewtypeVariant (Z.of_nat i) s). cbn [calls]. rewrite Hn, H1.
    split; [reflexivity|]. intros o. cbn [serialize]. rewrite (variant_word _ L). cbn [bind].
    rewrite H2, app_nil_r. now rewrite app_assoc.
  - apply zip_calls in H as (n & ss & H1 & H2).
    exists (S n), (STupleVariant (Z.of_nat i) ss). cbn [calls]. rewrite Hn, H1.
    split; [reflexivity|]. intros o. cbn [serialize]. rewrite (variant_word _ L). cbn [bind].
    rewrite H2. now rewrite app_assoc.
  - apply zip_calls in H as (n & ss & H1 & H2).
    exists (S n), (SStructVariant (Z.of_nat i) ss). cbn [calls]. rewrite Hn, H1.
    split; [reflexivity|]. intros o. cbn [serialize]. rewrite (variant_word _ L). cbn [bind].
    rewrite H2. now rewrite app_assoc.
Qed.

(** ** C27 *)

Lemma c27_f32 E z r : 0 <= z < 2 ^ 32 -> exists w, unsigned 4 z w /\
  encodes E TF32 (RFloat z) w /\ returns (fun n => deser n E TF32 (w ++ r)) (Ok (RFloat z, r)).
Proof.
  intros H. exists (be_bytes 4 z). pose proof (@unsigned_be 4 z H) as U. split; [exact U|]. split.
  - apply returns_to_bytes with 1%nat; [reflexivity|discriminate].
  - apply deser_accepted. now constructor.
Qed.
Lemma c27_f64 E z r : 0 <= z < 2 ^ 64 -> exists w, unsigned 8 z w /\
  encodes E TF64 (RFloat z) w /\ returns (fun n => deser n E TF64 (w ++ r)) (Ok (RFloat z, r)).
Proof.
  intros H. exists (be_bytes 8 z). pose proof (@unsigned_be 8 z H) as U. split; [exact U|]. split.
  - apply returns_to_bytes with 1%nat; [reflexivity|discriminate].
  - apply deser_accepted. now constructor.
Qed.

(** ** C28 *)

Lemma c28 d E t : env_guarded d E -> guarded d E true t = true -> forall i,
  exists r, r <> Fuel /\
    forall n, (d + Z.to_nat (zlen i / 4) * S d <= n)%nat -> from_bytes n E t i = r.
Proof.
  intros GE G i. set (N := (d + Z.to_nat (zlen i / 4) * S d)%nat).
  assert (F : from_bytes N E t i <> Fuel).
  { apply bind_nofuel.
    - apply (@deser_nofuel d E GE N d true); [exact G|]. unfold need, N. lia.
    - intros [v r] _. destruct r; discriminate. }
  exists (from_bytes N E t i). split; [exact F|]. intros n Hn. now apply from_bytes_mono.
Qed.

(** ** C30 *)

Lemma pad_size (bs p : list byte) : any_pad (zlen bs) p ->
  (4 - zlen bs mod 4 <? 4) = negb (zlen p =? 0) /\ (zlen p <> 0 -> 4 - zlen bs mod 4 = zlen p).
Proof.
  intros [A B]. pose proof (zlen_nonneg p). pose proof (zlen_nonneg bs).
  destruct (Z.ltb_spec (4 - zlen bs mod 4) 4), (Z.eqb_spec (zlen p) 0); cbn [negb]; split;
    try reflexivity; try (exfalso; lia); lia.
Qed.

Lemma slice_app p r : slice_from (zlen p) (p ++ r) = Ok r.
Proof.
  unfold slice_from. rewrite zlen_app. pose proof (zlen_nonneg r).
  destruct (Z.ltb_spec (zlen p + zlen r) (zlen p)); [lia|]. f_equal. unfold zlen.
  rewrite Nat2Z.id. rewrite skipn_app, skipn_all, Nat.sub_diag. reflexivity.
Qed.

Lemma padded_tail (bs p r : list byte) : any_pad (zlen bs) p ->
  (if 4 - zlen bs mod 4 <? 4 then i <- slice_from (4 - zlen bs mod 4) (p ++ r);; Ok (bs, i)
   else Ok (bs, p ++ r)) = Ok (bs, r).
Proof.
  intros P. destruct (pad_size P) as [E1 E2]. rewrite E1. destruct (Z.eqb_spec (zlen p) 0) as [K|K]; cbn [negb].
  - destruct p; [reflexivity|rewrite zlen_cons in K; pose proof (zlen_nonneg p); lia].
  - rewrite (E2 K). now rewrite slice_app.
Qed.

Lemma c30 E n t w bs p q r :
  t = TStr \/ t = TByteBuf \/ t = TOpaqueVar ->
  unsigned 4 (zlen bs) w -> any_pad (zlen bs) p -> any_pad (zlen bs) q ->
  deser n E t (w ++ bs ++ p ++ r) = deser n E t (w ++ bs ++ q ++ r).
Proof.
  intros T U P Q. destruct n; [reflexivity|]. destruct T as [->|[->| ->]]; cbn [deser].
  - unfold read_string. rewrite !(read_u32_app _ U). cbn [bind].
    rewrite !read_app by reflexivity. cbn [bind].
    destruct (utf8_ok bs); [|reflexivity]. now rewrite !padded_tail.
  - unfold read_bytes. rewrite !(read_u32_app _ U). cbn [bind].
    rewrite !read_app by reflexivity. cbn [bind]. now rewrite !padded_tail.
  - unfold de_opaque_variable. rewrite !(read_u32_app _ U). cbn [bind].
    destruct P, Q. rewrite !enumerate_u8_ok; auto.
Qed.

Lemma c30_fixed E n bs p q r : any_pad (zlen bs) p -> any_pad (zlen bs) q ->
  deser n E (TOpaqueFixed (length bs)) (bs ++ p ++ r) =
  deser n E (TOpaqueFixed (length bs)) (bs ++ q ++ r).
Proof.
  intros [P1 P2] [Q1 Q2]. destruct n; [reflexivity|]. cbn [deser]. unfold de_opaque_fixed.
  rewrite !enumerate_u8_ok; auto.
Qed.

Lemma inverse_settles asr tf d : signed32_inverse asr tf d -> signed32_settles asr tf d.
Proof.
  intros [H1 H2] z i H. pose proof (H2 _ _ H) as L. destruct (nth_error asr i) as [z'|] eqn:N; [|apply nth_error_None in N; lia].
  exists z'. split; [easy|]. now apply H1.
Qed.
Lemma indexer_inverse_settles {B} (vss : list (string * B)) index names d : indexer_inverse vss index names d -> indexer_settles vss index names d.
Proof. intros [H1 H2]. split; [easy|]. intros z name b _ I. now apply H2 in I. Qed.
