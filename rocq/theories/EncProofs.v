(** The serializer writes the RFC 4506 encoding. *)
From Verif Require Import Base SpecUtf8 SerModel RustTypes SpecXdr SpecTypes SpecDecode XdrFacts.
Set Implicit Arguments.

Definition emits (s : sval) (b : list byte) : Prop := forall o, serialize s o = Ok (o ++ b).

Lemma foldM_emits ss bss o : Forall2 emits ss bss ->
  foldM serialize ss o = Ok (o ++ concat bss).
Proof.
  intros H. revert o. induction H as [|s b ss bss Hs _ IH]; intros o; cbn.
  - now rewrite app_nil_r.
  - rewrite Hs. cbn. rewrite IH. now rewrite <- app_assoc.
Qed.

Lemma rfcs_forall2 xs bss : Forall2 rfc xs bss -> rfcs xs (concat bss).
Proof. induction 1; cbn; constructor; auto. Qed.

(** pad of the serializer *)
Definition pad_len (n : Z) : nat := Z.to_nat ((- n) mod 4).

Lemma pad_len_ok n : zero_pad n (repeat x00 (pad_len n)).
Proof. apply zero_pad_repeat; unfold pad_len; lia. Qed.

Lemma serialize_bytes_emits bs o : zlen bs < 2 ^ 32 ->
  serialize_bytes bs o =
    Ok (o ++ be_bytes 4 (zlen bs) ++ bs ++ repeat x00 (pad_len (zlen bs))).
Proof.
  intros L. unfold serialize_bytes, serialize_u32. cbn [bind].
  assert (wrap_u 32 (zlen bs) = zlen bs) as ->.
  { apply wrap_u_id. unfold in_u. pose proof (zlen_nonneg bs). lia. }
  f_equal. unfold pad_len.
  pose proof (zlen_nonneg bs).
  destruct (Z.ltb_spec (4 - zlen bs mod 4) 4) as [H1|H1].
  - replace ((- zlen bs) mod 4) with (4 - zlen bs mod 4) by lia.
    now rewrite <- !app_assoc.
  - replace ((- zlen bs) mod 4) with 0 by lia. cbn [Z.to_nat repeat].
    now rewrite app_nil_r, <- !app_assoc.
Qed.

Lemma be4_be_val a b c d : be_bytes 4 (be_val [a; b; c; d]) = [a; b; c; d].
Proof. exact (be_bytes_be_val [a; b; c; d]). Qed.

Lemma list4_ind {A} (P : list A -> Prop) :
  P [] -> (forall a, P [a]) -> (forall a b, P [a; b]) -> (forall a b c, P [a; b; c]) ->
  (forall a b c d l, P l -> P (a :: b :: c :: d :: l)) -> forall l, P l.
Proof.
  intros H0 H1 H2 H3 H4.
  assert (G : forall n l, (length l <= n)%nat -> P l).
  { induction n as [|n IH]; intros [|a [|b [|c [|d l]]]] Hl; cbn in Hl; auto; try lia.
    apply H4, IH. lia. }
  intros l; apply (G (length l)); lia.
Qed.

Lemma enumerate_u32_emits bs o :
  foldM serialize (map SU32 (enumerate_u32 bs)) o
  = Ok (o ++ bs ++ repeat x00 (pad_len (zlen bs))).
Proof.
  revert o. induction bs as [|a|a b|a b c|a b c d l IH] using list4_ind; intros o.
  - cbn. now rewrite app_nil_r.
  - cbn [enumerate_u32 map foldM serialize]. unfold serialize_u32. cbn [bind].
    now rewrite be4_be_val.
  - cbn [enumerate_u32 map foldM serialize]. unfold serialize_u32. cbn [bind].
    now rewrite be4_be_val.
  - cbn [enumerate_u32 map foldM serialize]. unfold serialize_u32. cbn [bind].
    now rewrite be4_be_val.
  - cbn [enumerate_u32 map foldM serialize]. unfold serialize_u32 at 1. cbn [bind].
    rewrite be4_be_val, IH, <- app_assoc. cbn [app].
    replace (pad_len (zlen (a :: b :: c :: d :: l))) with (pad_len (zlen l)); [reflexivity|].
    unfold pad_len. rewrite !zlen_cons. f_equal. lia.
Qed.

Lemma serialize_len_ok n o : 0 <= n < 2 ^ 32 ->
  serialize_len (Some n) o = Ok (o ++ be_bytes 4 n).
Proof.
  intros H. cbn. unfold serialize_u32. rewrite wrap_u_id; [reflexivity|].
  unfold in_u. lia.
Qed.

Lemma serialize_variant_index_ok i o : i < 2 ^ 31 ->
  serialize_variant_index i o = Ok (o ++ be_bytes 4 i).
Proof.
  intros H. unfold serialize_variant_index. destruct (Z.ltb_spec i (2 ^ 31)); [reflexivity|lia].
Qed.

Lemma zipM_repeat {B C} (f : ty -> B -> res C) t k vs : length vs = k ->
  zipM f (repeat t k) vs = mapM (f t) vs.
Proof.
  intros <-. induction vs as [|v vs IH]; [reflexivity|]. cbn. now rewrite IH.
Qed.

Lemma denotes_all_length R E ts vs xs : denotes_all R E ts vs xs ->
  length vs = length ts /\ length xs = length ts.
Proof. induction 1; cbn; lia. Qed.

Lemma Forall2_length' {A B} (P : A -> B -> Prop) l l' : Forall2 P l l' -> length l = length l'.
Proof. induction 1; cbn; auto. Qed.

(** serialization of map entries *)
Lemma mapM_pairs (f g : rval -> res sval) kvs a b :
  mapM f (map fst kvs) = Ok a -> mapM g (map snd kvs) = Ok b ->
  mapM (fun kv => x <- f (fst kv);; y <- g (snd kv);; Ok (x, y)) kvs = Ok (combine a b).
Proof.
  revert a b. induction kvs as [|[k v] kvs IH]; intros a b Ha Hb; cbn in *.
  - inversion Ha; inversion Hb. reflexivity.
  - destruct (f k) as [x| | | |]; cbn in *; try discriminate.
    destruct (mapM f (map fst kvs)) as [xs| | | |]; cbn in *; try discriminate.
    destruct (g v) as [y| | | |]; cbn in *; try discriminate.
    destruct (mapM g (map snd kvs)) as [ys| | | |]; cbn in *; try discriminate.
    inversion Ha; inversion Hb; subst. rewrite (IH xs ys) by reflexivity. reflexivity.
Qed.

Lemma foldM_pairs (a b : list sval) ba bb o : Forall2 emits a ba -> Forall2 emits b bb ->
  length a = length b ->
  foldM (fun '(k, v) o => o' <- serialize k o;; serialize v o') (combine a b) o
  = Ok (o ++ concat (map (fun '(x, y) => x ++ y) (combine ba bb))).
Proof.
  intros Ha. revert b bb o. induction Ha as [|s x a ba Hs _ IH]; intros b bb o Hb L.
  - cbn. now rewrite app_nil_r.
  - destruct Hb as [|s' y b bb Hs' Hb]; [discriminate|]. cbn in L. injection L as L.
    cbn [combine foldM map concat]. rewrite Hs. cbn [bind]. rewrite Hs'. cbn [bind].
    rewrite (IH _ _ _ Hb L). now rewrite <- !app_assoc.
Qed.

Lemma rfcs_pairs ks vs bk bv : Forall2 rfc ks bk -> Forall2 rfc vs bv ->
  length ks = length vs ->
  rfcs (map (fun '(k, v) => XStruct [k; v]) (combine ks vs))
       (concat (map (fun '(x, y) => x ++ y) (combine bk bv))).
Proof.
  intros Hk. revert vs bv. induction Hk as [|k b ks bk Hb _ IH]; intros vs bv Hv L.
  - constructor.
  - destruct Hv as [|v b' vs bv Hb' Hv]; [discriminate|]. cbn in L. injection L as L.
    cbn. constructor; [|now apply IH].
    constructor. constructor; [assumption|].
    rewrite <- (app_nil_r b'). constructor; [assumption|constructor].
Qed.

Definition enc_ok (R : bool) (E : env) (t : ty) (v : rval) (x : xv) : Prop :=
  exists s bs N, (forall n, (N <= n)%nat -> calls n E t v = Ok s) /\ emits s bs /\ rfc x bs.

Definition encs_ok (R : bool) (E : env) (ts : list ty) (vs : list rval) (xs : list xv) : Prop :=
  exists ss bss N, (forall n, (N <= n)%nat -> zipM (calls n E) ts vs = Ok ss) /\
    Forall2 emits ss bss /\ Forall2 rfc xs bss.

Ltac leaf s b :=
  exists s, b, 1%nat; split; [intros [|n] Hn; [lia|reflexivity]|split].

(** one more unit of fuel *)
Ltac step N :=
  let n := fresh "n" in let Hn := fresh "Hn" in
  intros [|n] Hn; [lia|]; cbn [calls];
  repeat match goal with H : nth_error _ _ = _ |- _ => rewrite H end;
  repeat match goal with H : assoc _ _ _ = _ |- _ => rewrite H end;
  repeat match goal with H : lookup _ _ = _ |- _ => rewrite H end.

Lemma enc_main R E :
  (forall t v x, denotes R E t v x -> enc_ok R E t v x) /\
  (forall ts vs xs, denotes_all R E ts vs xs -> encs_ok R E ts vs xs).
Proof.
  apply denotes_denotes_all_ind; intros; unfold enc_ok, encs_ok in *;
    repeat match goal with H : exists _, _ |- _ => destruct H end;
    repeat match goal with H : _ /\ _ |- _ => destruct H end.
  - (* bool *)
    leaf (SBool b) (be_bytes 4 (if b then 1 else 0)); [intros o; reflexivity|].
    constructor. apply unsigned_be. destruct b; cbn; lia.
  - (* int *)
    exists (call_int s w z), (be_bytes (int_bytes w) z), 1%nat.
    split; [intros [|n] Hn; [lia|reflexivity]|].
    destruct s, w; cbn in H0; try discriminate; injection H0 as <-;
      (split; [intros o; reflexivity|]); constructor; cbn in H;
      first [apply signed_be; cbn; lia | apply unsigned_be; cbn; lia].
  - leaf (SF32 z) (be_bytes 4 z); [intros o; reflexivity|].
    constructor. apply unsigned_be. cbn; lia.
  - leaf (SF64 z) (be_bytes 8 z); [intros o; reflexivity|].
    constructor. apply unsigned_be. cbn; lia.
  - leaf (SChar c) (be_bytes 4 c); [intros o; reflexivity|].
    constructor. apply unsigned_be. unfold is_scalar in *. cbn; lia.
  - (* str *)
    leaf (SStr bs) (be_bytes 4 (zlen bs) ++ bs ++ repeat x00 (pad_len (zlen bs))).
    + intros o. apply serialize_bytes_emits; assumption.
    + constructor; [|apply pad_len_ok]. apply unsigned_be. pose proof (zlen_nonneg bs). cbn; lia.
  - leaf (SBytes bs) (be_bytes 4 (zlen bs) ++ bs ++ repeat x00 (pad_len (zlen bs))).
    + intros o. apply serialize_bytes_emits; assumption.
    + constructor; [|apply pad_len_ok]. apply unsigned_be. pose proof (zlen_nonneg bs). cbn; lia.
  - (* none *)
    leaf SNone (be_bytes 4 0); [intros o; reflexivity|].
    constructor. apply unsigned_be. cbn; lia.
  - (* some *)
    exists (SSome x0), (be_bytes 4 1 ++ x1), (S x2).
    split; [step x2; rewrite H0 by lia; reflexivity|split].
    + intros o. cbn [serialize]. unfold serialize_u32. cbn [bind].
      rewrite H1. now rewrite <- app_assoc.
    + constructor; [|assumption]. apply unsigned_be. cbn; lia.
  - leaf SUnit (@nil byte); [intros o; cbn; now rewrite app_nil_r|constructor].
  - leaf SUnitStruct (@nil byte); [intros o; cbn; now rewrite app_nil_r|constructor].
  - (* newtype *)
    exists (SNewtypeStruct x0), x1, (S x2).
    split; [step x2; rewrite H0 by lia; reflexivity|split; [exact H1|]].
    constructor. rewrite <- (app_nil_r x1). constructor; [assumption|constructor].
  - (* box *)
    exists x0, x1, (S x2).
    split; [step x2; rewrite H0 by lia; reflexivity|split; assumption].
  - (* seq *)
    exists (SSeq (Some (zlen vs)) x), (be_bytes 4 (zlen vs) ++ concat x0), (S x1).
    split; [step x1; rewrite <- (@zipM_repeat _ _ (calls n E) t (length vs) vs eq_refl), H1 by lia;
            reflexivity|split].
    + intros o. cbn [serialize]. rewrite serialize_len_ok by (pose proof (zlen_nonneg vs); lia).
      cbn [bind]. rewrite (foldM_emits _ H2). now rewrite <- app_assoc.
    + constructor; [|now apply rfcs_forall2].
      apply denotes_all_length in H0. rewrite repeat_length in H0.
      replace (zlen xs) with (zlen vs) by (unfold zlen; lia).
      apply unsigned_be. pose proof (zlen_nonneg vs). cbn; lia.
  - (* array *)
    exists (STuple x), (concat x0), (S x1).
    pose proof (denotes_all_length H) as L. rewrite repeat_length in L.
    split; [step x1; rewrite <- (@zipM_repeat _ _ (calls n E) t k vs), H0 by lia;
            reflexivity|split].
    + intros o. cbn [serialize]. now apply foldM_emits.
    + constructor. now apply rfcs_forall2.
  - (* tuple *)
    exists (STuple x), (concat x0), (S x1).
    split; [step x1; rewrite H0 by lia; reflexivity|split].
    + intros o. cbn [serialize]. now apply foldM_emits.
    + constructor. now apply rfcs_forall2.
  - (* tuple struct *)
    exists (STupleStruct x), (concat x0), (S x1).
    split; [step x1; rewrite H0 by lia; reflexivity|split].
    + intros o. cbn [serialize]. now apply foldM_emits.
    + constructor. now apply rfcs_forall2.
  - (* struct *)
    exists (SStruct x), (concat x0), (S x1).
    split; [step x1; rewrite H0 by lia; reflexivity|split].
    + intros o. cbn [serialize]. now apply foldM_emits.
    + constructor. now apply rfcs_forall2.
  - (* map *)
    rename H0 into ND, H1 into Dk, H3 into Dv.
    rename x into sv, x0 into bv, x1 into Nv, x2 into sk, x3 into bk, x4 into Nk.
    exists (SMap (Some (zlen kvs)) (combine sk sv)),
      (be_bytes 4 (zlen kvs) ++ concat (map (fun '(x, y) => x ++ y) (combine bk bv))),
      (S (Nat.max Nk Nv)).
    pose proof (denotes_all_length Dk) as Lk. pose proof (denotes_all_length Dv) as Lv.
    rewrite repeat_length, map_length in Lk, Lv.
    match goal with A : Forall2 emits sk bk, B : Forall2 emits sv bv,
                    C : Forall2 rfc ks bk, D : Forall2 rfc vs bv |- _ =>
      rename A into Ek, B into Ev, C into Rk, D into Rv end.
    pose proof (Forall2_length' Ek) as L1. pose proof (Forall2_length' Ev) as L2.
    pose proof (Forall2_length' Rk) as L3. pose proof (Forall2_length' Rv) as L4.
    split; [|split].
    + step x1. rewrite (@mapM_pairs _ _ _ sk sv).
      * reflexivity.
      * rewrite <- (@zipM_repeat _ _ (calls n E) tk (length kvs)) by (now rewrite map_length).
        match goal with A : forall n, _ -> zipM _ _ (map fst kvs) = _ |- _ => apply A end. lia.
      * rewrite <- (@zipM_repeat _ _ (calls n E) tv (length kvs)) by (now rewrite map_length).
        match goal with A : forall n, _ -> zipM _ _ (map snd kvs) = _ |- _ => apply A end. lia.
    + intros o. cbn [serialize]. rewrite serialize_len_ok by (pose proof (zlen_nonneg kvs); lia).
      cbn [bind]. rewrite (@foldM_pairs sk sv bk bv) by (assumption || lia).
      now rewrite <- app_assoc.
    + constructor; [|apply rfcs_pairs; (assumption || lia)].
      replace (zlen (map (fun '(k, v) => XStruct [k; v]) (combine ks vs))) with (zlen kvs).
      * apply unsigned_be. pose proof (zlen_nonneg kvs). cbn; lia.
      * unfold zlen. rewrite map_length, combine_length. lia.
  - (* unit variant *)
    exists (SUnitVariant (Z.of_nat i)), (be_bytes 4 (Z.of_nat i)), 1%nat.
    split; [step N; reflexivity|split].
    + intros o. cbn [serialize]. now apply serialize_variant_index_ok.
    + constructor. apply signed_be; cbn; lia.
  - (* newtype variant *)
    exists (SNewtypeVariant (Z.of_nat i) x0), (be_bytes 4 (Z.of_nat i) ++ x1), (S x2).
    split; [step N; rewrite H2 by lia; reflexivity|split].
    + intros o. cbn [serialize]. rewrite serialize_variant_index_ok by lia. cbn [bind].
      rewrite H3. now rewrite <- app_assoc.
    + constructor; [|assumption]. constructor. apply signed_be; cbn; lia.
  - (* tuple variant *)
    exists (STupleVariant (Z.of_nat i) x), (be_bytes 4 (Z.of_nat i) ++ concat x0), (S x1).
    split; [step N; rewrite H2 by lia; destruct vs; reflexivity|split].
    + intros o. cbn [serialize]. rewrite serialize_variant_index_ok by lia. cbn [bind].
      rewrite (foldM_emits _ H3). now rewrite <- app_assoc.
    + constructor; constructor; [apply signed_be; cbn; lia|now apply rfcs_forall2].
  - (* struct variant *)
    exists (SStructVariant (Z.of_nat i) x), (be_bytes 4 (Z.of_nat i) ++ concat x0), (S x1).
    split; [step N; rewrite H2 by lia; destruct vs; reflexivity|split].
    + intros o. cbn [serialize]. rewrite serialize_variant_index_ok by lia. cbn [bind].
      rewrite (foldM_emits _ H3). now rewrite <- app_assoc.
    + constructor; constructor; [apply signed_be; cbn; lia|now apply rfcs_forall2].
  - (* opaque fixed *)
    leaf (calls_opaque_fixed bs) (bs ++ repeat x00 (pad_len (zlen bs))).
    + intros o. cbn [serialize calls_opaque_fixed]. apply enumerate_u32_emits.
    + constructor. apply pad_len_ok.
  - (* opaque variable *)
    leaf (calls_opaque_variable bs) (be_bytes 4 (zlen bs) ++ bs ++ repeat x00 (pad_len (zlen bs))).
    + intros o. cbn [serialize calls_opaque_variable].
      rewrite serialize_len_ok by (pose proof (zlen_nonneg bs); lia). cbn [bind].
      rewrite enumerate_u32_emits. now rewrite <- app_assoc.
    + constructor; [|apply pad_len_ok]. apply unsigned_be. pose proof (zlen_nonneg bs). cbn; lia.
  - (* signed32 *)
    exists (SI32 z), (be_bytes 4 z), 1%nat.
    split; [step N; reflexivity|split; [intros o; reflexivity|]].
    constructor. unfold i32_range in *. apply signed_be; cbn; lia.
  - (* indexer *)
    rename H5 into Hc, H6 into He, H7 into Hr.
    exists (STuple (SI32 z :: x)), (be_bytes 4 z ++ concat x0), (S x1).
    split; [step N; rewrite Hc by lia; reflexivity|split].
    + intros o. cbn [serialize foldM]. unfold serialize_i32. cbn [bind].
      rewrite (foldM_emits _ He). now rewrite <- app_assoc.
    + unfold i32_range in *.
      constructor; constructor; [apply signed_be; cbn; lia|now apply rfcs_forall2].
  - (* union *)
    rename x2 into b0, x1 into s0.
    match goal with
    | A : forall n, _ -> zipM _ _ _ = Ok ?ss, B : Forall2 emits ?ss ?bb,
      C : forall n, _ -> calls _ _ _ _ = Ok ?s1, D : emits ?s1 ?bs1 |- _ =>
      rename A into Hz, B into He, C into Hc, D into Hs;
      exists (STuple (s1 :: ss)), (bs1 ++ concat bb)
    end.
    match type of Hz with forall n, (?a <= n)%nat -> _ =>
    match type of Hc with forall n, (?b <= n)%nat -> _ => exists (S (Nat.max a b)) end end.
    split; [step N; cbn [zipM]; rewrite Hc, Hz by lia; reflexivity|split].
    + intros o. cbn [serialize foldM]. rewrite Hs. cbn [bind].
      rewrite (foldM_emits _ He). now rewrite <- app_assoc.
    + constructor; [assumption|constructor]. now apply rfcs_forall2.
  - (* ref *)
    exists x0, x1, (S x2).
    split; [step N; rewrite H1 by lia; reflexivity|split; assumption].
  - exists [], [], 0%nat. repeat split; constructor.
  - match goal with
    | A : forall n, _ -> zipM _ _ _ = Ok ?ss, B : Forall2 emits ?ss ?bb,
      C : forall n, _ -> calls _ _ _ _ = Ok ?s1, D : emits ?s1 ?bs1 |- _ =>
      rename A into Hz, B into He, C into Hc, D into Hs;
      exists (s1 :: ss), (bs1 :: bb)
    end.
    match type of Hz with forall n, (?a <= n)%nat -> _ =>
    match type of Hc with forall n, (?b <= n)%nat -> _ => exists (Nat.max a b) end end.
    split; [intros n Hn; cbn [zipM]; rewrite Hc, Hz by lia; reflexivity|split];
      constructor; assumption.
Qed.

(** to_bytes of a writable value is the RFC encoding of its XDR value. *)
Lemma to_bytes_rfc R E t v x : denotes R E t v x ->
  exists bs, rfc x bs /\ returns (fun n => to_bytes n E t v) (Ok bs).
Proof.
  intros H. apply (proj1 (enc_main R E)) in H as (s & bs & N & Hc & He & Hr).
  exists bs. split; [exact Hr|]. split; [discriminate|].
  exists N. intros n Hn. unfold to_bytes. rewrite Hc by exact Hn. cbn. exact (He []).
Qed.
