(** Proofs about the dynamically sized data of decoded values (C95). *)
From Verif Require Import Base SerModel RustTypes SpecXdr SpecTypes DeModel SpecDecode ReadFacts
  DecProofs CodecProofs CodecLemmas SpecMisc SpecWork.
Set Implicit Arguments. Unset Strict Implicit.
Local Open Scope list_scope.

(** ** One amount per value *)

Lemma load_once_all E :
  (forall t v k, load E t v k -> 0 <= k /\ forall k', load E t v k' -> k' = k) /\
  (forall ms k, loads E ms k -> 0 <= k /\ forall k', loads E ms k' -> k' = k).
Proof.
  apply load_loads_ind.
  - intros t v k _ [P IH]. split.
    + assert (0 <= own t v) by (destruct t, v; cbn [own]; try lia;
        match goal with |- context[zlen ?l] => pose proof (zlen_nonneg l); lia end). lia.
    + intros k' H. inversion H; subst. match goal with L : loads _ _ _ |- _ => apply IH in L end. lia.
  - split; [lia|]. intros k' H. now inversion H.
  - intros t v k ms l _ [P IH] _ [Q JH]. split; [lia|]. intros k' H. inversion H; subst.
    match goal with L : loads _ _ _ |- _ => apply JH in L end.
    match goal with L : load _ _ _ _ |- _ => apply IH in L end. lia.
Qed.

Lemma load_once E t v k k' : load E t v k -> load E t v k' -> k = k'.
Proof. intros A B. symmetry. exact (proj2 (proj1 (load_once_all E) _ _ _ A) _ B). Qed.

(** ** Inner types of a solid type *)

Lemma solid_inner E s t : In s (inner E t) -> solid E t -> solid E s.
Proof.
  intros I [A B]. split; intros; [apply A|apply B]; eapply wi_inner; eauto.
Qed.

Lemma never_empty_accepts E t v : never_empty E t -> ~ accepts E t v [].
Proof.
  intros N A. destruct (from_bytes_accepted A) as (_ & k & H). apply (N k v). apply H. lia.
Qed.

(** ** Elements *)

(** an element that was read: its type, value, amount and bytes *)
Record part := Part { pt : ty; pv : rval; pk : Z; pb : list byte }.

Definition bound (k : Z) (b : list byte) : Prop := 0 <= k /\ (b = [] /\ k = 0 \/ k + 4 <= zlen b).

Definition good E (p : part) : Prop :=
  accepts E (pt p) (pv p) (pb p) /\ load E (pt p) (pv p) (pk p) /\ bound (pk p) (pb p).

Fixpoint sum (l : list Z) : Z := match l with [] => 0 | z :: l => z + sum l end.

Lemma sum_app a b : sum (a ++ b) = sum a + sum b.
Proof. induction a; cbn; lia. Qed.

Lemma bound_app a x b y : bound a x -> bound b y -> bound (a + b) (x ++ y).
Proof.
  intros [P A] [Q B]. split; [lia|]. rewrite zlen_app.
  pose proof (zlen_nonneg x). pose proof (zlen_nonneg y).
  destruct A as [[-> ->]|A], B as [[-> ->]|B]; cbn; unfold zlen in *; cbn in *; auto; right; lia.
Qed.

Lemma bound_all E ps : Forall (good E) ps -> bound (sum (map pk ps)) (concat (map pb ps)).
Proof.
  induction 1 as [|p ps (_ & _ & B) _ IH]; cbn; [split; [lia|now left]|]. now apply bound_app.
Qed.

Lemma loads_all E ps : Forall (good E) ps ->
  loads E (combine (map pt ps) (map pv ps)) (sum (map pk ps)).
Proof. induction 1 as [|p ps (_ & L & _) _ IH]; cbn; constructor; auto. Qed.

(** elements of a sequence *)
Lemma seq_parts E t ps : never_empty E t -> Forall (good E) ps -> map pt ps = repeat t (length ps) ->
  loads E (map (pair t) (map pv ps)) (sum (map pk ps)) /\
  4 * zlen ps + sum (map pk ps) <= zlen (concat (map pb ps)) /\ 0 <= sum (map pk ps).
Proof.
  intros N. induction 1 as [|p ps (A & L & B) _ IH]; cbn [map length repeat concat sum]; intros Ht.
  - split; [constructor|]. unfold zlen. cbn. lia.
  - injection Ht as T Ht. destruct (IH Ht) as (I1 & I2 & I3). rewrite T in *.
    split; [now constructor|]. rewrite zlen_cons, zlen_app.
    destruct B as [P [[E0 _]|B]]; [|lia]. exfalso. rewrite E0 in A. exact (never_empty_accepts N A).
Qed.

Lemma array_parts E t ps : Forall (good E) ps -> map pt ps = repeat t (length ps) ->
  loads E (map (pair t) (map pv ps)) (sum (map pk ps)).
Proof.
  induction 1 as [|p ps (A & L & B) _ IH]; cbn; intros Ht; constructor;
    injection Ht as T Ht; rewrite T in *; auto.
Qed.

(** pairs of a map: amount of an entry with its own four bytes *)
Definition entry E tk tv (kv : rval * rval) (c : Z) : Prop :=
  exists a b, load E tk (fst kv) a /\ load E tv (snd kv) b /\ c = 4 + (a + b) /\ 0 <= a /\ 0 <= b.

Lemma pair_parts E tk tv : never_empty E tk \/ never_empty E tv -> forall kvs ps, Forall (good E) ps ->
  map pt ps = flat_map (fun _ => [tk; tv]) kvs ->
  map pv ps = flat_map (fun '(k, v) => [k; v]) kvs ->
  exists cs, Forall2 (entry E tk tv) kvs cs /\ sum cs <= zlen (concat (map pb ps)).
Proof.
  intros N. induction kvs as [|[k v] kvs IH]; intros ps G Ht Hv; cbn in Ht, Hv.
  - destruct ps; [|discriminate]. exists []. split; [constructor|]. cbn. unfold zlen. cbn. lia.
  - destruct ps as [|p [|q ps]]; try discriminate. cbn in Ht, Hv.
    injection Ht as Tp Tq Ht. injection Hv as Vp Vq Hv.
    apply Forall_cons_iff in G as [Gp G]. apply Forall_cons_iff in G as [Gq G].
    destruct (IH _ G Ht Hv) as (cs & F & L). destruct Gp as (Ap & Lp & Bp), Gq as (Aq & Lq & Bq).
    rewrite Tp, Vp in *. rewrite Tq, Vq in *.
    exists (4 + (pk p + pk q) :: cs). split.
    + constructor; [|assumption]. exists (pk p), (pk q). cbn. destruct Bp, Bq. repeat split; auto.
    + cbn [map concat sum]. rewrite !zlen_app.
      destruct Bp as [P1 [[E1 Z1]|B1]], Bq as [P2 [[E2 Z2]|B2]];
        rewrite ?E1, ?E2, ?Z1, ?Z2 in *; unfold zlen in *; cbn [length Z.of_nat] in *; try lia.
      exfalso. destruct N as [N|N]; eapply never_empty_accepts; eauto.
Qed.

Lemma last_wins_cost E tk tv kvs m : last_wins kvs m -> forall cs, Forall2 (entry E tk tv) kvs cs ->
  exists cs', Forall2 (entry E tk tv) m cs' /\ sum cs' <= sum cs.
Proof.
  induction 1 as [|kvs m k v _ IH Hn|kvs m1 k v v' m2 H IH]; intros cs F.
  - exists cs. split; [assumption|lia].
  - apply Forall2_app_inv_l in F as (c1 & c2 & F1 & F2 & ->).
    destruct (IH _ F1) as (d & D & L). exists (d ++ c2). split; [now apply Forall2_app|].
    rewrite !sum_app. lia.
  - apply Forall2_app_inv_l in F as (c1 & c2 & F1 & F2 & ->).
    destruct (IH _ F1) as (d & D & L).
    apply Forall2_app_inv_l in D as (d1 & d2 & D1 & D2 & ->).
    inversion F2 as [|? c ? ? Hc Hnil]; subst. inversion Hnil; subst.
    inversion D2 as [|? e ? d3 He D3]; subst.
    exists (d1 ++ c :: d3). split; [now apply Forall2_app; auto|].
    rewrite !sum_app in *. cbn in *. destruct He as (? & ? & _ & _ & -> & ? & ?). lia.
Qed.

Lemma map_loads E tk tv m cs : Forall2 (entry E tk tv) m cs ->
  exists k, loads E (flat_map (fun '(k, v) => [(tk, k); (tv, v)]) m) k /\ sum cs = 4 * zlen m + k /\ 0 <= k.
Proof.
  induction 1 as [|[k v] c m cs (a & b & La & Lb & -> & Pa & Pb) _ (K & L & S & P)].
  - exists 0. repeat split; [constructor|lia].
  - exists (a + (b + K)). split; [cbn; now repeat constructor|]. rewrite zlen_cons. cbn [sum]. lia.
Qed.

(** ** Invariant *)

Definition held E t v b := exists k, load E t v k /\ bound k b.

Definition held_all E ts vs b := exists ps, ts = map pt ps /\ vs = map pv ps /\
  b = concat (map pb ps) /\ Forall (good E) ps.

Lemma held_leaf E t v b : members E t v = [] -> bound (own t v) b -> held E t v b.
Proof.
  intros M B. exists (own t v). split; [|assumption]. replace (own t v) with (own t v + 0) by lia.
  constructor. rewrite M. constructor.
Qed.

Lemma held_one E t v u w b c : members E t v = [(u, w)] -> own t v = 0 -> held E u w b ->
  zlen c mod 4 = 0 -> held E t v (c ++ b).
Proof.
  intros M O (k & L & B) C. exists k. split.
  - replace k with (own t v + (k + 0)) by lia. constructor. rewrite M. now repeat constructor.
  - destruct B as [P B]. split; [lia|]. rewrite zlen_app. pose proof (zlen_nonneg c).
    destruct B as [[-> ->]|B]; [|right; lia].
    destruct c as [|c0 c]; [now left|]. rewrite zlen_cons in *. pose proof (zlen_nonneg c).
    right. change (zlen (@nil byte)) with 0. lia.
Qed.

Lemma held_some E t v ts vs b c : members E t v = combine ts vs -> own t v = 0 -> held_all E ts vs b ->
  zlen c mod 4 = 0 -> held E t v (c ++ b).
Proof.
  intros M O (ps & -> & -> & -> & G) C. exists (sum (map pk ps)). split.
  - replace (sum (map pk ps)) with (own t v + sum (map pk ps)) by lia. constructor. rewrite M.
    now apply loads_all.
  - replace (sum (map pk ps)) with (0 + sum (map pk ps)) by lia. apply bound_app; [|now apply bound_all with E].
    split; [lia|]. destruct c as [|c0 c]; [now left|]. rewrite zlen_cons in *. pose proof (zlen_nonneg c).
    right. lia.
Qed.

Lemma unsigned_word k z w : unsigned k z w -> zlen w = Z.of_nat k.
Proof. intros [L _]. unfold zlen. lia. Qed.

Lemma unit_bound w : zlen w = 4 -> bound 0 w.
Proof. intros H. split; [lia|]. right. lia. Qed.

Lemma in_fields {A} (x : string * A) l i : nth_error l i = Some x -> In x l.
Proof. apply nth_error_In. Qed.

Theorem accepts_held E :
  (forall t v b, accepts E t v b -> solid E t -> held E t v b) /\
  (forall ts vs b, accepts_all E ts vs b -> Forall (solid E) ts -> held_all E ts vs b).
Proof.
  Local Ltac word := repeat match goal with
    | H : unsigned _ _ _ |- _ => apply unsigned_word in H
    | H : signed _ _ _ |- _ => apply proj1 in H
    end.
  Local Ltac leaf := intros; word; eapply held_leaf; [reflexivity|cbn [own]; apply unit_bound; unfold zlen in *; lia].
  Local Ltac into := match goal with
    | H : solid ?E ?t -> held ?E ?t _ _, S : solid ?E _ |- _ =>
        specialize (H ltac:(eapply solid_inner; [|exact S]; cbn; auto))
    end.
  Local Ltac ins S := match goal with H : Forall (solid ?E) ?l -> held_all _ _ _ _ |- _ =>
        let F := fresh in assert (Forall (solid E) l) as F;
        [apply Forall_forall; intros ? ?; eapply solid_inner; [|exact S]|specialize (H F)] end.
  apply accepts_accepts_all_ind.
  all: try solve [leaf].
  - (* ints *) intros s w z z' word _ U _ _ _. apply unsigned_word in U.
    eapply held_leaf; [reflexivity|]; cbn [own]. split; [lia|]. right. destruct w; cbn in U; lia.
  - (* f64 *) intros z w U _. apply unsigned_word in U. eapply held_leaf; [reflexivity|]; cbn [own].
    split; [lia|]. right. lia.
  - (* strings *) intros n bs p U A _ _. apply unsigned_word in U.
    eapply held_leaf; [reflexivity|]; cbn [own]. pose proof (zlen_nonneg bs). split; [cbn [own]; lia|]. right.
    rewrite !zlen_app. pose proof (zlen_nonneg p). cbn [own]. lia.
  - intros n bs p U A _. apply unsigned_word in U.
    eapply held_leaf; [reflexivity|]; cbn [own]. pose proof (zlen_nonneg bs). split; [cbn [own]; lia|]. right.
    rewrite !zlen_app. pose proof (zlen_nonneg p). cbn [own]. lia.
  - (* Some *) intros t v w z bs U _ _ IH S. into. apply unsigned_word in U.
    eapply held_one; [reflexivity|reflexivity|eassumption|]. rewrite U. reflexivity.
  - intros _. eapply held_leaf; [reflexivity|]; cbn [own]. split; [lia|now left].
  - intros _. eapply held_leaf; [reflexivity|]; cbn [own]. split; [lia|now left].
  - intros t v bs _ IH S. into. apply (@held_one _ _ _ t v bs []); auto.
  - intros t v bs _ IH S. into. apply (@held_one _ _ _ t v bs []); auto.
  - (* seq *) intros t vs n bs U _ IH S.
    assert (Forall (solid E) (repeat t (length vs))) as F.
    { apply Forall_forall. intros x I. apply repeat_spec in I as ->. eapply solid_inner; [|exact S]. now left. }
    destruct (IH F) as (ps & Ht & -> & -> & G). rewrite map_length in Ht.
    apply unsigned_word in U.
    destruct (@seq_parts E t ps) as (L & B & P); [|assumption|now symmetry|].
    { apply S. constructor. }
    exists (own (TSeq t) (RSeq (map pv ps)) + sum (map pk ps)). split; [now constructor|].
    cbn [own]. unfold zlen at 1. rewrite map_length. fold (zlen ps). pose proof (zlen_nonneg ps).
    split; [lia|]. right. rewrite zlen_app. lia.
  - (* arrays *) intros k t vs bs _ IH S.
    assert (Forall (solid E) (repeat t k)) as F.
    { apply Forall_forall. intros x I. apply repeat_spec in I as ->. eapply solid_inner; [|exact S]. now left. }
    destruct (IH F) as (ps & Ht & -> & -> & G).
    exists (own (TArray k t) (RSeq (map pv ps)) + sum (map pk ps)). split.
    + constructor. cbn [members]. apply array_parts; auto.
      rewrite <- Ht. f_equal. apply (f_equal (@length _)) in Ht. now rewrite repeat_length, map_length in Ht.
    + cbn [own]. now apply bound_all with E.
  - intros ts vs bs _ IH S. ins S; [assumption|]. now apply (@held_some _ _ _ ts vs bs []).
  - intros ts vs bs _ IH S. ins S; [assumption|]. now apply (@held_some _ _ _ ts vs bs []).
  - intros ts vs bs _ IH S. ins S; [assumption|]. now apply (@held_some _ _ _ (map snd ts) vs bs []).
  - (* maps *) intros tk tv kvs m n bs U _ IH LW S.
    assert (Forall (solid E) (flat_map (fun _ : rval * rval => [tk; tv]) kvs)) as F.
    { apply Forall_forall. intros x I. apply in_flat_map in I as (? & _ & I).
      eapply solid_inner; [|exact S]. exact I. }
    destruct (IH F) as (ps & Ht & Hv & -> & G). apply unsigned_word in U.
    destruct (@pair_parts E tk tv) with (kvs := kvs) (ps := ps) as (cs & Fc & Lc); auto.
    { apply S. constructor. }
    destruct (last_wins_cost LW Fc) as (ds & Fd & Ld). destruct (map_loads Fd) as (k & L & Sk & P).
    exists (own (TMap tk tv) (RMap m) + k). split; [now constructor|]. cbn [own].
    pose proof (zlen_nonneg m). split; [lia|]. right. rewrite zlen_app. lia.
  - (* unit variant *) intros vss i name w U _ H _. apply unsigned_word in U.
    eapply held_leaf; [cbn; now rewrite H|cbn [own]; now apply unit_bound].
  - intros vss i name t v w bs U _ H _ IH S. apply unsigned_word in U.
    specialize (IH ltac:(eapply solid_inner; [|exact S]; cbn; apply in_flat_map;
      exists (name, VNewtype t); split; [eapply nth_error_In; eassumption|now left])).
    eapply held_one; [cbn; now rewrite H|reflexivity|eassumption|now rewrite U].
  - intros vss i name ts vs w bs U _ H _ IH S. apply unsigned_word in U.
    ins S. { cbn. apply in_flat_map. exists (name, VTuple ts). split; [eapply nth_error_In; eassumption|assumption]. }
    eapply held_some; [cbn; now rewrite H|reflexivity|eassumption|now rewrite U].
  - intros vss i name ts vs w bs U _ H _ IH S. apply unsigned_word in U.
    ins S. { cbn. apply in_flat_map. exists (name, VStruct ts). split; [eapply nth_error_In; eassumption|assumption]. }
    eapply held_some; [cbn; now rewrite H|reflexivity|eassumption|now rewrite U].
  - (* fixed opaque *) intros k bs p L [A _] _. eapply held_leaf; [reflexivity|]; cbn [own].
    split; [lia|]. rewrite zlen_app. pose proof (zlen_nonneg bs). pose proof (zlen_nonneg p).
    destruct bs as [|b bs], p as [|q p]; [now left|right|right|right];
      rewrite ?zlen_cons in *; change (zlen (@nil byte)) with 0 in *;
      try pose proof (zlen_nonneg bs); try pose proof (zlen_nonneg p); lia.
  - intros n bs p U A _. apply unsigned_word in U.
    eapply held_leaf; [reflexivity|]; cbn [own]. pose proof (zlen_nonneg bs). split; [cbn [own]; lia|]. right.
    rewrite !zlen_app. pose proof (zlen_nonneg p). cbn [own]. lia.
  - (* indexer *) intros vss index names d i z w name ts vs bs [U _] _ H _ _ _ IH S.
    ins S. { cbn. apply in_flat_map. exists (name, ts). split; [eapply nth_error_In; eassumption|assumption]. }
    eapply held_some; [cbn; now rewrite H|reflexivity|eassumption|unfold zlen; now rewrite U].
  - (* union, unit variant *) intros vss disc names d i v w name A _ _ H _ _.
    eapply held_leaf; [cbn; now rewrite H|]; cbn [own]. split; [lia|].
    apply (proj1 (accepts_aligned E)) in A. destruct w as [|b w]; [now left|right].
    rewrite zlen_cons in *. pose proof (zlen_nonneg w). lia.
  - intros vss disc names d i v w name ts vs bs A IHd _ H _ _ _ IH S.
    into. ins S. { cbn. right. apply in_flat_map. exists (name, Some ts). split; [eapply nth_error_In; eassumption|assumption]. }
    destruct IHd as (k & L & B), IH as (ps & -> & -> & -> & G).
    exists (k + sum (map pk ps)). split; [|apply bound_app; [assumption|now apply bound_all with E]].
    replace (k + sum (map pk ps)) with (own (TUnion vss disc names d) (RVariant i (v :: map pv ps)) + (k + sum (map pk ps)))
      by reflexivity.
    constructor. cbn. rewrite H. constructor; [assumption|now apply loads_all].
  - intros x t v bs H _ IH S. specialize (IH ltac:(eapply solid_inner; [|exact S]; cbn; rewrite H; now left)).
    apply (@held_one _ _ _ t v bs []); auto. cbn. now rewrite H.
  - intros _. exists []. repeat split. constructor.
  - intros t ts v vs b bs A IH _ IHs F. apply Forall_cons_iff in F as [S F].
    destruct (IH S) as (k & L & B), (IHs F) as (ps & -> & -> & -> & G).
    exists (Part t v k b :: ps). repeat split. now constructor.
Qed.

(** ** C95 *)

Lemma c95_bound E t n i v : solid E t -> from_bytes n E t i = Ok v ->
  exists k, load E t v k /\ (forall k', load E t v k' -> k' = k) /\ 0 <= k /\ (i = [] -> k = 0) /\
    (i <> [] -> k + 4 <= zlen i).
Proof.
  intros S H. apply from_bytes_inv in H. destruct (proj1 (accepts_held E) _ _ _ H S) as (k & L & P & B).
  exists k. repeat split; auto.
  - intros k' L'. exact (load_once L' L).
  - destruct B as [[_ ->]|B]; [reflexivity|]. intros ->. change (zlen (@nil byte)) with 0 in B. lia.
  - destruct B as [[-> _]|B]; auto. now intros [].
Qed.

Lemma empty_elements E t n v : from_bytes n E t [] = Ok v ->
  exists vs, zlen vs = 2 ^ 32 - 1 /\ Forall (eq v) vs /\
    returns (fun n => from_bytes n E (TSeq t) [xff; xff; xff; xff]) (Ok (RSeq vs)).
Proof.
  intros H. apply from_bytes_inv in H. remember (Z.to_nat (2 ^ 32 - 1)) as big eqn:Hb.
  exists (repeat v big). split; [|split].
  - unfold zlen. rewrite repeat_length. subst big. lia.
  - apply Forall_forall. intros x I. apply repeat_spec in I. congruence.
  - apply from_bytes_accepted. rewrite <- (app_nil_r [xff; xff; xff; xff]). constructor.
    + unfold zlen. rewrite repeat_length, Hb. rewrite Z2Nat.id by lia. split; reflexivity.
    + rewrite repeat_length. clear Hb. induction big as [|big IH]; cbn; [constructor|].
      change (@nil byte) with (@nil byte ++ []). now constructor.
Qed.
