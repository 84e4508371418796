(** What any [Serialize] impl writes, any [Deserialize] impl reads. *)
From Verif Require Import Base SpecUtf8 Utf8 Utf8Proofs SerModel RustTypes DeModel SpecXdr SpecTypes SpecDecode XdrFacts ReadFacts EncProofs
  DecProofs CodecProofs TotalProofs CodecLemmas StreamProofs VisitModel SpecVisit VisitProofs.
Set Implicit Arguments.
Unset Strict Implicit.

(** ** The bytes of a stream *)
Definition blob (bs : list byte) : list byte := be_bytes 4 (zlen bs) ++ bs ++ repeat x00 (pad_len (zlen bs)).
Definition enc (k : tok) : list byte :=
  match k with
  | KBool b => be_bytes 4 (if b then 1 else 0)
  | KInt _ w z => be_bytes (int_bytes w) z
  | KF32 z | KChar z | KLen z | KIndex z => be_bytes 4 z
  | KF64 z => be_bytes 8 z
  | KStr bs | KBytes bs => blob bs
  | KNone => be_bytes 4 0
  | KSome => be_bytes 4 1
  end.
Definition encs : list tok -> list byte := flat_map enc.
Definition sent (k : tok) : Prop := match k with KInt _ W128 _ => False | KIndex z => z < 2 ^ 31 | _ => True end.

Definition says (r : list byte -> res (list byte)) (ks : list tok) : Prop :=
  Forall tok_ok ks -> forall o o', r o = Ok o' -> o' = o ++ encs ks /\ Forall sent ks.
Lemma says_one r k : (tok_ok k -> forall o o', r o = Ok o' -> o' = o ++ enc k /\ sent k) -> says r [k].
Proof.
  intros H W o o' R. apply Forall_cons_iff in W as [W _]. destruct (H W o o' R) as [-> S]. split; [|now repeat constructor]. cbn. now rewrite app_nil_r.
Qed.
Lemma says_bind r1 r2 k1 k2 : says r1 k1 -> says r2 k2 -> says (fun o => o1 <- r1 o;; r2 o1) (k1 ++ k2).
Proof.
  intros H1 H2 W o o' R. apply Forall_app in W as [W1 W2]. destruct (r1 o) as [o1| | | |] eqn:R1; try discriminate. cbn [bind] in R.
  destruct (H1 W1 _ _ R1) as [-> S1]. destruct (H2 W2 _ _ R) as [-> S2]. split; [|now apply Forall_app]. unfold encs. now rewrite flat_map_app, app_assoc.
Qed.
Lemma says_nil : says (fun o => Ok o) [].
Proof. intros _ o o' H. injection H as <-. split; [now rewrite app_nil_r|constructor]. Qed.
Lemma says_fold {A} (g : A -> list byte -> res (list byte)) (ks : A -> list tok) l :
  Forall (fun a => says (g a) (ks a)) l -> says (foldM g l) (flat_map ks l).
Proof.
  induction 1 as [|a l H _ IH]; [exact says_nil|]. cbn [flat_map]. exact (@says_bind _ _ _ _ H IH).
Qed.
Lemma says_word {B} (r : list byte -> res (list byte)) (k : tok) (b : B) n z : (forall o, r o = Ok (o ++ be_bytes n z)) -> enc k = be_bytes n z -> sent k -> says r [k].
Proof. intros R E S. apply says_one. intros _ o o' H. rewrite R in H. injection H as <-. now rewrite E. Qed.
Lemma says_blob k bs : enc k = blob bs -> (tok_ok k -> zlen bs < 2 ^ 32) -> sent k -> says (serialize_bytes bs) [k].
Proof. intros E L S. apply says_one. intros W o o' H. rewrite serialize_bytes_emits in H by (now apply L). injection H as <-. now rewrite E. Qed.
Lemma says_variant z : says (serialize_variant_index z) [KIndex z].
Proof.
  apply says_one. intros W o o' H. unfold serialize_variant_index in H. destruct (Z.ltb_spec z (2 ^ 31)); [|discriminate]. injection H as <-. now split.
Qed.
Lemma says_len o : says (serialize_len o) (match o with Some n => [KLen n] | None => [] end).
Proof.
  destruct o as [n|]; [|intros _ o o' H; discriminate]. apply says_one. intros W o o' H. rewrite serialize_len_ok in H by exact W. injection H as <-. now split.
Qed.

Lemma serialize_says s : says (serialize s) (tokens s).
Proof.
  apply sval_ind' with (P := fun s => says (serialize s) (tokens s)); clear s.
  - intros s; destruct s; try exact Logic.I; cbn [serialize tokens];
      try (intros _ o o' H; discriminate); try exact says_nil; try apply says_variant;
      try (eapply (says_word tt); [intros o; reflexivity|reflexivity|exact Logic.I]).
    + apply (@says_blob (KStr bs)); [reflexivity|now intros [_ ?]|exact Logic.I].
    + apply (@says_blob (KBytes bs)); [reflexivity|now intros ?|exact Logic.I].
  - intros s IH. apply (@says_bind (serialize_u32 1) (serialize s) [KSome]); [|exact IH].
    eapply (says_word tt); [intros o; reflexivity|reflexivity|exact Logic.I].
  - intros s IH. exact IH.
  - intros i s IH. exact (@says_bind _ _ _ _ (@says_variant i) IH).
  - intros o l H. exact (@says_bind _ _ _ _ (@says_len o) (@says_fold _ _ _ _ H)).
  - intros l H. exact (@says_fold _ _ _ _ H).
  - intros l H. exact (@says_fold _ _ _ _ H).
  - intros i l H. exact (@says_bind _ _ _ _ (@says_variant i) (@says_fold _ _ _ _ H)).
  - intros o l H. apply (@says_bind _ _ _ _ (@says_len o)). apply says_fold. eapply Forall_impl; [|exact H]. intros [k v] [K V]. exact (@says_bind _ _ _ _ K V).
  - intros l H. exact (@says_fold _ _ _ _ H).
  - intros i l H. exact (@says_bind _ _ _ _ (@says_variant i) (@says_fold _ _ _ _ H)).
Qed.

(** ** Reading the bytes of a stream *)
Lemma u32_word z r : 0 <= z < 2 ^ 32 -> read_u32 (be_bytes 4 z ++ r) = Ok (z, r).
Proof. intros H. apply read_u32_app, unsigned_be. exact H. Qed.
Lemma pad_any n : any_pad n (repeat x00 (pad_len n)).
Proof. apply zero_pad_any, pad_len_ok. Qed.
Lemma hear_visit q ks v ks' : Forall tok_ok ks -> Forall sent ks -> hear_ask q ks = Some (v, ks') ->
  (forall r, visit_of q (encs ks ++ r) = Ok (v, encs ks' ++ r)) /\ Forall tok_ok ks' /\ Forall sent ks'.
Proof.
  intros W S H. unfold hear_ask in H.
  destruct q; try discriminate H; try (injection H as <- <-; now repeat split);
    (destruct ks as [|k ks]; [discriminate H|]); (apply Forall_cons_iff in W as [W WS]; apply Forall_cons_iff in S as [S SS]);
    destruct k as [b|s' w' z|z|z|z|bs|bs| | |z|z]; try discriminate H.
  all: try (injection H as <- <-; split; [|now split]; intros r; unfold encs; cbn [flat_map enc]; rewrite <- app_assoc; fold (encs ks); cbn [tok_ok] in W).
  - cbn [visit_of]. rewrite u32_word by (destruct b; lia). now destruct b.
  - destruct (Bool.eqb s s') eqn:B; [|discriminate H]. cbn [andb] in H. destruct (Z.eqb_spec (bits w) (bits w')) as [BW|]; [|discriminate H].
    apply Bool.eqb_prop in B. subst s'. assert (w = w') by (now destruct w, w'). subst w'. injection H as <- <-. split; [|now split].
    intros r. unfold encs. cbn [flat_map enc]. rewrite <- app_assoc. cbn [visit_of].
    assert (N : w <> W128) by (intros ->; exact S). rewrite (@de_int_app s w z (z mod 2 ^ (8 * Z.of_nat (int_bytes w)))); [reflexivity|exact N| |exact W|].
    + split; [apply be_bytes_length|]. now rewrite nval_be_bytes, pow256.
    + destruct w; cbn; try lia. contradiction.
  - cbn [visit_of]. change read_f32 with read_u32. now rewrite u32_word.
  - cbn [visit_of]. change read_f64 with read_u64. rewrite (@read_u64_app z) by (apply unsigned_be; exact W). reflexivity.
  - cbn [visit_of]. unfold read_char. rewrite u32_word by (unfold is_scalar in W; lia). cbn [bind]. apply char_ok_spec in W. now rewrite W.
  - cbn [visit_of]. unfold blob. rewrite <- !app_assoc. rewrite read_string_app; [reflexivity| |apply pad_any|apply W].
    apply unsigned_be. pose proof (zlen_nonneg bs). destruct W as [_ W]. split; [assumption|exact W].
  - cbn [visit_of]. unfold blob. rewrite <- !app_assoc. rewrite read_string_app; [reflexivity| |apply pad_any|apply W].
    apply unsigned_be. pose proof (zlen_nonneg bs). destruct W as [_ W]. split; [assumption|exact W].
  - cbn [visit_of]. unfold blob. rewrite <- !app_assoc. rewrite read_bytes_app; [reflexivity| |apply pad_any].
    apply unsigned_be. pose proof (zlen_nonneg bs). split; [assumption|exact W].
  - cbn [visit_of]. unfold blob. rewrite <- !app_assoc. rewrite read_bytes_app; [reflexivity| |apply pad_any].
    apply unsigned_be. pose proof (zlen_nonneg bs). split; [assumption|exact W].
  - cbn [visit_of]. now rewrite u32_word.
  - cbn [visit_of]. now rewrite u32_word.
  - cbn [visit_of]. now rewrite u32_word.
  - cbn [visit_of]. now rewrite u32_word.
  - cbn [visit_of]. unfold blob. rewrite <- !app_assoc. rewrite read_string_app; [reflexivity| |apply pad_any|apply W].
    apply unsigned_be. pose proof (zlen_nonneg bs). destruct W as [_ W]. split; [assumption|exact W].
Qed.

Definition heard {A} (f : list tok -> option (A * list tok)) (p : parser A) : Prop := forall ks a ks',
  Forall tok_ok ks -> Forall sent ks -> f ks = Some (a, ks') ->
  (forall r, p (encs ks ++ r) = Ok (a, encs ks' ++ r)) /\ Forall tok_ok ks' /\ Forall sent ks'.
Lemma heard_bind {A B} (f : list tok -> option (A * list tok)) (g : A -> list tok -> option (B * list tok)) p (q : A -> parser B) :
  heard f p -> (forall a, heard (g a) (q a)) ->
  heard (fun ks => and_then (f ks) (fun '(a, ks) => g a ks)) (fun i => '(a, i) <- p i;; q a i).
Proof.
  intros P Q ks b ks' W S H. destruct (f ks) as [[a k1]|] eqn:F; [|discriminate]. cbn [and_then] in H.
  destruct (P ks a k1 W S F) as (R & W1 & S1). destruct (Q a k1 b ks' W1 S1 H) as (R' & W2 & S2).
  split; [|now split]. intros r. rewrite R. apply R'.
Qed.
Lemma heard_result {A B} (r : result A) (g : A -> list tok -> option (B * list tok)) (q : A -> parser B) : (forall a, heard (g a) (q a)) ->
  heard (fun ks => and_then (given r) (fun a => g a ks)) (fun i => a <- res_of r;; q a i).
Proof. intros Q ks b ks' W S H. destruct r; try discriminate. cbn in H. cbn [res_of bind]. now apply Q. Qed.
Lemma heard_both : (forall A (p : impl A), heard (hear p) (run p)) /\ (forall A (a : act A) c, heard (hear_act a c) (run_act a c)).
Proof.
  apply impl_act_ind.
  - intros A q on IH. exact (heard_bind (fun ks a ks' => @hear_visit q ks a ks') (fun v => IH v (count_of v))).
  - intros A r c. apply (@heard_result _ _ r (fun a ks => Some (a, ks)) (fun a i => Ok (a, i))).
    intros a ks b ks' W S H. injection H as <- <-. now split.
  - intros A p IH c. exact IH.
  - intros A B p IHp k IHk c ks a ks' W S H. cbn [hear_act run_act] in *. destruct (c =? 0); [now apply IHk|].
    exact (heard_bind IHp (fun b => IHk (Some b) (c - 1)) W S H).
  - intros A B p IHp k IHk c. exact (heard_bind IHp (fun b => IHk b c)).
  - intros A B seed k IHk c ks a ks' W S H. cbn [hear_act] in H. destruct ks as [|[b|s' w' z|z|z|z|bs|bs| | |z|z] ks]; try discriminate H.
    apply Forall_cons_iff in W as [W WS]. apply Forall_cons_iff in S as [S SS]. cbn in W, S.
    destruct (@heard_result _ _ (seed z) _ _ (fun b => IHk b c) ks a ks' WS SS H) as (R & W2 & S2). split; [|now split].
    intros r. cbn [run_act]. unfold encs. cbn [flat_map enc]. rewrite <- app_assoc. fold (encs ks).
    rewrite (@read_i32_app z) by (apply signed_be; [lia|]; cbn; lia). cbn [bind]. destruct (Z.ltb_spec z 0); [lia|]. apply R.
Qed.

Theorem loopback A s bs (p : impl A) a : to_bytes_calls s = Ok bs -> Forall tok_ok (tokens s) -> hear p (tokens s) = Some (a, []) ->
  from_bytes_with p bs = Ok a.
Proof.
  intros B W H. destruct (serialize_says W B) as [-> S]. apply with_ok.
  destruct (proj1 heard_both A p (tokens s) a [] W S H) as [R _]. specialize (R []). now rewrite app_nil_r in R.
Qed.
Theorem loopback_rest A s bs (p : impl A) a rest : to_bytes_calls s = Ok bs -> Forall tok_ok (tokens s) -> hear p (tokens s) = Some (a, []) ->
  run p (bs ++ rest) = Ok (a, rest).
Proof.
  intros B W H. destruct (serialize_says W B) as [-> S]. destruct (proj1 heard_both A p (tokens s) a [] W S H) as [R _]. apply R.
Qed.
