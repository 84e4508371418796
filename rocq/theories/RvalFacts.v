(** Facts about value equality and lookup helpers. *)
From Verif Require Import Base SerModel RustTypes DeModel SpecTypes SpecDecode.
Set Implicit Arguments.

Section RvalInd.
  Context (P : rval -> Prop)
    (Hbool : forall b, P (RBool b)) (Hint : forall z, P (RInt z))
    (Hfloat : forall z, P (RFloat z)) (Hchar : forall z, P (RChar z))
    (Hstr : forall bs, P (RStr bs)) (Hbytes : forall bs, P (RBytes bs))
    (Hnone : P RNone) (Hsome : forall v, P v -> P (RSome v)) (Hunit : P RUnit)
    (Hseq : forall vs, Forall P vs -> P (RSeq vs))
    (Hmap : forall kvs, Forall (fun kv => P (fst kv) /\ P (snd kv)) kvs -> P (RMap kvs))
    (Hvar : forall i vs, Forall P vs -> P (RVariant i vs)).

  Fixpoint rval_ind' (v : rval) : P v :=
    let all := fix all (vs : list rval) : Forall P vs :=
      match vs with
      | [] => Forall_nil _
      | v :: t => Forall_cons _ (rval_ind' v) (all t)
      end in
    match v with
    | RBool b => Hbool b
    | RInt z => Hint z
    | RFloat z => Hfloat z
    | RChar z => Hchar z
    | RStr bs => Hstr bs
    | RBytes bs => Hbytes bs
    | RNone => Hnone
    | RSome v => Hsome (rval_ind' v)
    | RUnit => Hunit
    | RSeq vs => Hseq (all vs)
    | RMap kvs =>
        Hmap ((fix go (l : list (rval * rval)) : Forall (fun kv => P (fst kv) /\ P (snd kv)) l :=
                 match l with
                 | [] => Forall_nil _
                 | (k, v) :: t => Forall_cons (k, v) (conj (rval_ind' k) (rval_ind' v)) (go t)
                 end) kvs)
    | RVariant i vs => Hvar i (all vs)
    end.
End RvalInd.

Lemma list_eqb_spec {A} (f : A -> A -> bool) a :
  Forall (fun x => forall y, f x y = true <-> x = y) a ->
  forall b, list_eqb f a b = true <-> a = b.
Proof.
  induction 1 as [|x a Hx _ IH]; intros [|y b]; cbn; try (split; [discriminate|discriminate]).
  - tauto.
  - rewrite andb_true_iff, Hx, IH. split; [intros [-> ->]; reflexivity|intros E; inversion E; auto].
Qed.

Lemma bytes_eqb_spec a b : bytes_eqb a b = true <-> a = b.
Proof.
  apply list_eqb_spec. apply Forall_forall. intros x _ y. rewrite Z.eqb_eq.
  split; [apply Zb_inj|now intros ->].
Qed.

Lemma rval_eqb_spec a : forall b, rval_eqb a b = true <-> a = b.
Proof.
  induction a using rval_ind'; intros [ | | | | | | | | | | | ]; cbn;
    try (split; [discriminate|discriminate]); try tauto.
  - rewrite Bool.eqb_true_iff. split; congruence.
  - rewrite Z.eqb_eq. split; congruence.
  - rewrite Z.eqb_eq. split; congruence.
  - rewrite Z.eqb_eq. split; congruence.
  - rewrite bytes_eqb_spec. split; congruence.
  - rewrite bytes_eqb_spec. split; congruence.
  - rewrite IHa. split; congruence.
  - rewrite list_eqb_spec by assumption. split; congruence.
  - revert kvs0. induction H as [|[k v] kvs [Hk Hv] _ IH]; intros [|[k' v'] kvs'];
      try (split; [discriminate|discriminate]); try tauto.
    rewrite !andb_true_iff, Hk, Hv. cbn [fst snd] in *. rewrite IH.
    split; [intros [[-> ->] E]; inversion E; reflexivity|].
    intros E; inversion E; subst; auto.
  - rewrite andb_true_iff, Nat.eqb_eq, list_eqb_spec by assumption.
    split; [intros [-> ->]; reflexivity|intros E; inversion E; auto].
Qed.

Lemma rval_eqb_refl a : rval_eqb a a = true.
Proof. now apply rval_eqb_spec. Qed.

Lemma rval_eqb_neq a b : a <> b -> rval_eqb a b = false.
Proof.
  intros H. destruct (rval_eqb a b) eqn:E; [|reflexivity].
  now apply rval_eqb_spec in E.
Qed.

(** ** find_variant *)

Lemma find_variant_spec {B} name (l : list (string * B)) pos k b :
  find_variant name l pos = Some (k, b) <->
  exists i, k = (pos + i)%nat /\ nth_error l i = Some (name, b) /\
    (forall j b', (j < i)%nat -> nth_error l j <> Some (name, b')).
Proof.
  revert pos. induction l as [|[x c] l IH]; intros pos; cbn [find_variant].
  - split; [discriminate|]. intros (i & _ & H & _). destruct i; discriminate.
  - destruct (String.eqb_spec name x) as [->|N].
    + split.
      * intros E; injection E as <- <-. exists O. repeat split; [lia|].
        intros j b' Hj; lia.
      * intros (i & -> & H & F). destruct i as [|i].
        -- cbn in H. injection H as ->. now rewrite Nat.add_0_r.
        -- exfalso. apply (F O c); [lia|reflexivity].
    + rewrite IH. split; intros (i & -> & H & F).
      * exists (S i). repeat split; [lia|exact H|].
        intros [|j] b' Hj; [cbn; congruence|cbn; apply F; lia].
      * destruct i as [|i]; [cbn in H; congruence|].
        exists i. repeat split; [lia|exact H|].
        intros j b' Hj. apply (F (S j)); lia.
Qed.

Lemma nodup_first {B} (l : list (string * B)) i name b : NoDup (map fst l) ->
  nth_error l i = Some (name, b) ->
  forall j b', (j < i)%nat -> nth_error l j <> Some (name, b').
Proof.
  intros ND Hi j b' Hj H.
  apply (map_nth_error fst) in H, Hi. cbn in *.
  assert (i = j); [|lia].
  apply (NoDup_nth_error (map fst l)); [exact ND| |congruence].
  apply nth_error_Some. congruence.
Qed.

(** ** maps *)

Lemma map_insert_new k v m : ~ In k (map fst m) -> map_insert k v m = m ++ [(k, v)].
Proof.
  induction m as [|[k' v'] m IH]; cbn; intros H; [reflexivity|].
  rewrite rval_eqb_neq by (intros ->; apply H; now left). rewrite IH; tauto.
Qed.

Lemma map_insert_again k v v' m1 m2 : ~ In k (map fst m1) ->
  map_insert k v' (m1 ++ (k, v) :: m2) = m1 ++ (k, v') :: m2.
Proof.
  induction m1 as [|[k' w] m1 IH]; cbn; intros H; [now rewrite rval_eqb_refl|].
  rewrite rval_eqb_neq by (intros ->; apply H; now left). rewrite IH; tauto.
Qed.

Lemma last_wins_nodup kvs m : last_wins kvs m -> NoDup (map fst m).
Proof.
  induction 1 as [|kvs m k v _ IH Hn|kvs m1 k v v' m2 _ IH].
  - constructor.
  - rewrite map_app. cbn. rewrite <- (rev_involutive (map fst m ++ [k])).
    apply NoDup_rev. rewrite rev_app_distr. cbn. constructor; [now rewrite <- in_rev|].
    now apply NoDup_rev.
  - rewrite map_app in *. exact IH.
Qed.

Definition map_of (kvs : list (rval * rval)) : list (rval * rval) :=
  fold_left (fun m kv => map_insert (fst kv) (snd kv) m) kvs [].

Lemma map_of_snoc kvs k v : map_of (kvs ++ [(k, v)]) = map_insert k v (map_of kvs).
Proof. unfold map_of. now rewrite fold_left_app. Qed.

Lemma last_wins_map_of kvs m : last_wins kvs m -> map_of kvs = m.
Proof.
  induction 1 as [|kvs m k v _ IH Hn|kvs m1 k v v' m2 H IH].
  - reflexivity.
  - rewrite map_of_snoc, IH. now apply map_insert_new.
  - rewrite map_of_snoc, IH. apply map_insert_again.
    apply last_wins_nodup in H. rewrite map_app in H. cbn in H.
    apply NoDup_remove_2 in H. intros C. apply H. apply in_or_app. now left.
Qed.

Lemma in_fst_split (k : rval) (m : list (rval * rval)) : In k (map fst m) ->
  exists m1 v m2, m = m1 ++ (k, v) :: m2.
Proof.
  intros H. apply in_map_iff in H as ([k' v] & E & H). cbn in E. subst k'.
  apply in_split in H as (m1 & m2 & ->). eauto.
Qed.

Lemma rval_eq_dec (a b : rval) : {a = b} + {a <> b}.
Proof.
  destruct (rval_eqb a b) eqn:E; [left; now apply rval_eqb_spec|].
  right. intros ->. now rewrite rval_eqb_refl in E.
Qed.

Lemma map_of_last_wins kvs : last_wins kvs (map_of kvs).
Proof.
  induction kvs as [|[k v] kvs IH] using rev_ind; [constructor|].
  rewrite map_of_snoc.
  destruct (in_dec rval_eq_dec k (map fst (map_of kvs))) as [I|I].
  - apply in_fst_split in I as (m1 & v0 & m2 & Em). rewrite Em in *.
    rewrite map_insert_again.
    + now apply lw_again with (v := v0).
    + apply last_wins_nodup in IH. rewrite map_app in IH. cbn in IH.
      apply NoDup_remove_2 in IH. intros C. apply IH. apply in_or_app. now left.
  - rewrite map_insert_new by exact I. now constructor.
Qed.

Lemma last_wins_id kvs : NoDup (map fst kvs) -> last_wins kvs kvs.
Proof.
  induction kvs as [|[k v] kvs IH] using rev_ind; intros H; [constructor|].
  rewrite map_app in H. cbn in H. apply NoDup_remove in H. rewrite app_nil_r in H.
  constructor; tauto.
Qed.
