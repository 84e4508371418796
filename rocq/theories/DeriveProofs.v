(** The code of the derive macros does what the types TIndexer and TUnion of
    RustTypes.v stand for. *)
From Verif Require Import Base SerModel RustTypes DeModel XdrFacts ReadFacts DeriveModel.
Set Implicit Arguments.
Unset Strict Implicit.

Lemma ident_eqb_spec x y : ident_eqb x y = true <-> x = y.
Proof.
  destruct x as [i|i|], y as [j|j|]; cbn; rewrite ?Nat.eqb_eq; split; congruence.
Qed.
Lemma ident_eqb_refl x : ident_eqb x x = true.
Proof. now apply ident_eqb_spec. Qed.

(** ** The lists that the loops build *)
Lemma indexer_fields_eq i ts : indexer_fields i ts =
  (map Arg (List.seq i (length ts)), combine (map Ret (List.seq i (length ts))) ts, map Ret (List.seq i (length ts))).
Proof. revert i. induction ts as [|t ts IH]; intros i; [reflexivity|]. cbn. now rewrite IH. Qed.
Lemma union_fields_rest i ts v : union_fields i false v ts =
  (map Arg (List.seq i (length ts)), combine (map Ret (List.seq i (length ts))) ts, map Ret (List.seq i (length ts)),
   match v with None => hd_error ts | s => s end).
Proof. revert i v. induction ts as [|t ts IH]; intros i v; [now destruct v|]. cbn. rewrite IH. now destruct v. Qed.

Definition arms_of (x : string) (ts : list ty) : ser_arm * de_arm :=
  let a := map Arg (List.seq 0 (length ts)) in
  (SerArm x a a, DeArm x (combine (map Ret (List.seq 0 (length ts))) ts) (map Ret (List.seq 0 (length ts)))).
Definition uarms_of (x : string) (ts : list ty) : ser_arm * de_arm :=
  let a := map Arg (List.seq 0 (length ts)) in
  (SerArm x a a, DeArm x (combine (map Ret (List.seq 1 (length (tl ts)))) (tl ts))
     (match ts with [] => [] | _ => Value :: map Ret (List.seq 1 (length (tl ts))) end)).
Definition unnamed (fs : fields) : Prop := forall l, fs <> FNamed l.

Lemma indexer_arms_eq vs sa da : indexer_arms vs = Some (sa, da) <->
  (forall x l, ~ In (x, FNamed l) vs) /\ sa = map (fun p => fst (arms_of (fst p) (types (snd p)))) vs /\ da = map (fun p => snd (arms_of (fst p) (types (snd p)))) vs.
Proof.
  revert sa da. induction vs as [|[x fs] vs IH]; intros sa da; cbn [indexer_arms].
  - split; [intros [= <- <-]; split; [intros x l []|easy]|intros (_ & -> & ->); reflexivity].
  - destruct fs as [l|l|].
    + split; [discriminate|]. intros (H & _). exfalso. apply (H x l). now left.
    + rewrite indexer_fields_eq. destruct (indexer_arms vs) as [[sa' da']|].
      * destruct (IH sa' da') as [IH' _]. destruct (IH' eq_refl) as (N & -> & ->). cbn [option_map]. split.
        -- intros [= <- <-]. split; [|split; reflexivity]. intros y k [H|H]; [discriminate|now apply N in H].
        -- intros (_ & -> & ->). reflexivity.
      * split; [discriminate|]. intros (N & _). destruct (IH (map (fun p => fst (arms_of (fst p) (types (snd p)))) vs) (map (fun p => snd (arms_of (fst p) (types (snd p)))) vs)) as [_ IH'].
        discriminate IH'. split; [|split; reflexivity]. intros y k H. apply (N y k). now right.
    + destruct (indexer_arms vs) as [[sa' da']|].
      * destruct (IH sa' da') as [IH' _]. destruct (IH' eq_refl) as (N & -> & ->). cbn [option_map]. split.
        -- intros [= <- <-]. split; [|split; reflexivity]. intros y k [H|H]; [discriminate|now apply N in H].
        -- intros (_ & -> & ->). reflexivity.
      * split; [discriminate|]. intros (N & _). destruct (IH (map (fun p => fst (arms_of (fst p) (types (snd p)))) vs) (map (fun p => snd (arms_of (fst p) (types (snd p)))) vs)) as [_ IH'].
        discriminate IH'. split; [|split; reflexivity]. intros y k H. apply (N y k). now right.
Qed.

(** the first field of the enum *)
Fixpoint first_ty (vs : list (string * fields)) : option ty :=
  match vs with [] => None | (_, fs) :: vs => match types fs with [] => first_ty vs | t :: _ => Some t end end.
Definition or_else {A} (a b : option A) : option A := match a with None => b | s => s end.
Lemma union_arms_eq v vs sa da w : union_arms v vs = Some (sa, da, w) <->
  (forall x l, ~ In (x, FNamed l) vs) /\ sa = map (fun p => fst (uarms_of (fst p) (types (snd p)))) vs /\ da = map (fun p => snd (uarms_of (fst p) (types (snd p)))) vs /\
  w = or_else v (first_ty vs).
Proof.
  revert v sa da w. induction vs as [|[x fs] vs IH]; intros v sa da w; cbn [union_arms].
  - split; [intros [= <- <- <-]; split; [intros x l []|now destruct v]|intros (_ & -> & -> & ->); now destruct v].
  - assert (ST : forall v', (union_arms v' vs = None -> exists y l, In (y, FNamed l) vs) /\
      (forall sa da w, union_arms v' vs = Some (sa, da, w) -> (forall x l, ~ In (x, FNamed l) vs) /\ sa = map (fun p => fst (uarms_of (fst p) (types (snd p)))) vs /\
         da = map (fun p => snd (uarms_of (fst p) (types (snd p)))) vs /\ w = or_else v' (first_ty vs))).
    { intros v'. split; [|intros sa' da' w' H; now apply IH in H].
      intros H. clear - H. revert v' H. induction vs as [|[y fs] vs IH]; intros v' H; [discriminate|]. cbn [union_arms] in H. destruct fs as [l|l|].
      - exists y, l. now left.
      - destruct (union_fields 0 true v' l) as [[[a b] c] e]. destruct (union_arms e vs) as [[[? ?] ?]|] eqn:U; [discriminate|]. destruct (IH _ U) as (z & k & K). exists z, k. now right.
      - destruct (union_arms v' vs) as [[[? ?] ?]|] eqn:U; [discriminate|]. destruct (IH _ U) as (z & k & K). exists z, k. now right. }
    destruct fs as [l|l|].
    + split; [discriminate|]. intros (H & _). exfalso. apply (H x l). now left.
    + assert (U : union_fields 0 true v l = (map Arg (List.seq 0 (length l)), combine (map Ret (List.seq 1 (length (tl l)))) (tl l),
          match l with [] => [] | _ => Value :: map Ret (List.seq 1 (length (tl l))) end, or_else v (hd_error l))).
      { destruct l as [|t l]; [now destruct v|]. cbn [union_fields]. rewrite union_fields_rest. now destruct v. }
      rewrite U. destruct (ST (or_else v (hd_error l))) as [S1 S2]. destruct (union_arms (or_else v (hd_error l)) vs) as [[[sa' da'] w']|].
      * destruct (S2 _ _ _ eq_refl) as (N & -> & -> & ->). cbn [option_map].
        assert (W : or_else (or_else v (hd_error l)) (first_ty vs) = or_else v (first_ty ((x, FUnnamed l) :: vs))) by (destruct v; [reflexivity|now destruct l]).
        split.
        -- intros [= <- <- <-]. split; [|split; [reflexivity|split; [reflexivity|exact W]]]. intros y k [H|H]; [discriminate|now apply N in H].
        -- intros (_ & -> & -> & ->). rewrite <- W. reflexivity.
      * split; [discriminate|]. intros (N & _). destruct (S1 eq_refl) as (y & k & K). exfalso. apply (N y k). now right.
    + destruct (ST v) as [S1 S2]. destruct (union_arms v vs) as [[[sa' da'] w']|].
      * destruct (S2 _ _ _ eq_refl) as (N & -> & -> & ->). cbn [option_map]. split.
        -- intros [= <- <- <-]. split; [|split; [reflexivity|split; reflexivity]]. intros y k [H|H]; [discriminate|now apply N in H].
        -- intros (_ & -> & -> & ->). reflexivity.
      * split; [discriminate|]. intros (N & _). destruct (S1 eq_refl) as (y & k & K). exfalso. apply (N y k). now right.
Qed.

(** ** Running the arms *)
Lemma elements_eq {A} (f : ty -> rval -> res A) ts fs pre : length fs = length ts ->
  elements f (combine (map Arg (List.seq 0 (length pre + length ts))) (pre ++ combine ts fs)) (map Arg (List.seq (length pre) (length ts))) = zipM f ts fs.
Proof.
  revert fs pre. induction ts as [|t ts IH]; intros [|v fs] pre L; try discriminate; [reflexivity|].
  cbn [length List.seq map elements].
  assert (X : forall (T : list (ty * rval)) p q k, length p = k -> assoc ident_eqb (Arg k) (combine (map Arg (List.seq 0 (k + S (length q)))) (p ++ (t, v) :: q)) = Some (t, v)).
  { intros _ p q k <-. clear. assert (G : forall o, assoc ident_eqb (Arg (o + length p)) (combine (map Arg (List.seq o (length p + S (length q)))) (p ++ (t, v) :: q)) = Some (t, v)).
    { induction p as [|a p IH]; intros o; cbn.
      - now rewrite Nat.add_0_r, Nat.eqb_refl.
      - destruct a as [t' v']. cbn. destruct (Nat.eqb_spec (o + S (length p)) o); [lia|]. specialize (IH (S o)). now replace (o + S (length p))%nat with (S o + length p)%nat by lia. }
    exact (G O). }
  cbn [combine]. assert (LC : length ts = length (combine ts fs)) by (rewrite combine_length; cbn in L; lia).
  rewrite LC at 1. rewrite X by (exact [] || reflexivity).
  cbn [zipM]. destruct (f t v) as [a|e| | |]; try reflexivity. cbn [bind].
  specialize (IH fs (pre ++ [(t, v)])). rewrite app_length in IH. cbn [length] in IH. rewrite <- app_assoc in IH. cbn [app] in IH.
  replace (length pre + 1 + length ts)%nat with (length pre + S (length ts))%nat in IH by lia.
  replace (length pre + 1)%nat with (S (length pre)) in IH by lia. rewrite IH; [reflexivity|cbn in L; lia].
Qed.
Lemma run_lets_eq n E ts k b s : run_lets n E (combine (map Ret (List.seq k (length ts))) ts) b s =
  ('(l, s) <- visit_fields_unwrap (map (deser n E) ts) s;; Ok (rev (combine (map Ret (List.seq k (length ts))) l) ++ b, s)).
Proof.
  revert k b s. induction ts as [|t ts IH]; intros k b s; [reflexivity|].
  cbn [length List.seq map combine run_lets visit_fields_unwrap]. destruct (next_element (deser n E t) s) as [[[v|] s']|e| | |]; cbn [bind]; try reflexivity.
  rewrite IH. destruct (visit_fields_unwrap (map (deser n E) ts) s') as [[l s2]|e| | |]; cbn [bind]; try reflexivity.
  cbn [combine rev]. now rewrite <- app_assoc.
Qed.
Lemma assoc_none {V} x (l : list (ident * V)) : (forall v, ~ In (x, v) l) -> forall m, assoc ident_eqb x (l ++ m) = assoc ident_eqb x m.
Proof.
  induction l as [|[y v] l IH]; intros H m; [reflexivity|]. cbn. destruct (ident_eqb x y) eqn:E.
  - apply ident_eqb_spec in E as <-. exfalso. apply (H v). now left.
  - apply IH. intros w W. apply (H w). now right.
Qed.
Lemma in_combine_ret k n l i v : In (Ret i, v) (combine (map Ret (List.seq k n)) l : list (ident * rval)) -> (k <= i < k + n)%nat.
Proof. intros H. apply in_combine_l in H. apply in_map_iff in H as (j & [= ->] & H). now apply in_seq in H. Qed.
Lemma run_rets_eq l k b : run_rets (rev (combine (map Ret (List.seq k (length l))) l) ++ b) (map Ret (List.seq k (length l))) = Ok l.
Proof.
  revert k b. induction l as [|v l IH]; intros k b; [reflexivity|].
  cbn [length List.seq map combine rev run_rets]. rewrite <- app_assoc. cbn [app].
  rewrite assoc_none.
  - cbn. rewrite Nat.eqb_refl. now rewrite (IH (S k) ((Ret k, v) :: b)).
  - intros w W. apply in_rev, in_combine_ret in W. lia.
Qed.
Lemma visit_unwrap_length {A} (ps : list (parser A)) s l s' : visit_fields_unwrap ps s = Ok (l, s') -> length l = length ps.
Proof.
  revert s l s'. induction ps as [|p ps IH]; intros s l s' H; [now injection H as <- _|]. cbn [visit_fields_unwrap] in H.
  destruct (next_element p s) as [[[a|] s2]|e| | |]; cbn [bind] in H; try discriminate.
  destruct (visit_fields_unwrap ps s2) as [[l2 s3]|e| | |] eqn:V; cbn [bind] in H; try discriminate. injection H as <- _. cbn. now rewrite (IH _ _ _ V).
Qed.

Definition tuples (vs : list (string * fields)) : list (string * list ty) := map (fun p => (fst p, types (snd p))) vs.
Definition utuples (vs : list (string * fields)) : list (string * option (list ty)) :=
  map (fun p => (fst p, match types (snd p) with [] => None | _ :: ts => Some ts end)) vs.

Lemma find_ser (g : string -> list ty -> ser_arm * de_arm) vs i x fs : (forall x ts, sa_variant (fst (g x ts)) = x) -> NoDup (map fst vs) ->
  nth_error vs i = Some (x, fs) -> find (fun a => String.eqb (sa_variant a) x) (map (fun p => fst (g (fst p) (types (snd p)))) vs) = Some (fst (g x (types fs))).
Proof.
  intros G. revert i. induction vs as [|[y fs'] vs IH]; intros i N H; [now destruct i|]. cbn [map find]. rewrite G. cbn [fst snd]. inversion N as [|? ? N1 N2]; subst.
  destruct i as [|i]; [injection H as -> ->; now rewrite String.eqb_refl|]. cbn in H. destruct (String.eqb_spec y x) as [->|D].
  - exfalso. apply N1. apply nth_error_In in H. apply in_map_iff. now exists (x, fs).
  - now apply IH with i.
Qed.
Lemma find_de (g : string -> list ty -> ser_arm * de_arm) (h : list ty -> option (list ty)) x vs k : (forall x ts, da_variant (snd (g x ts)) = x) ->
  match find_variant x vs k with
  | Some (j, fs) => find (fun a => String.eqb (da_variant a) x) (map (fun p => snd (g (fst p) (types (snd p)))) vs) = Some (snd (g x (types fs))) /\
      find_variant x (tuples vs) k = Some (j, types fs) /\ find_variant x (utuples vs) k = Some (j, match types fs with [] => None | _ :: ts => Some ts end)
  | None => find (fun a => String.eqb (da_variant a) x) (map (fun p => snd (g (fst p) (types (snd p)))) vs) = None /\
      find_variant x (tuples vs) k = None /\ find_variant x (utuples vs) k = None
  end.
Proof.
  intros G. revert k. induction vs as [|[y fs] vs IH]; intros k; [easy|]. cbn [find_variant tuples utuples map find fst snd]. rewrite G. rewrite (String.eqb_sym y x).
  destruct (String.eqb_spec x y) as [->|D]; [repeat split|]. exact (IH (S k)).
Qed.

Theorem indexer_serialize_eq vs sa da n E index names d i x fs vals : xdr_indexer (ItemEnum vs) = Some (sa, da) -> NoDup (map fst vs) ->
  nth_error vs i = Some (x, fs) -> length vals = length (types fs) ->
  indexer_serialize n E vs sa index i vals = calls (S n) E (TIndexer (tuples vs) index names d) (RVariant i vals).
Proof.
  intros X N Hn L. cbn [xdr_indexer] in X. apply indexer_arms_eq in X as (_ & -> & _). unfold indexer_serialize. cbn [calls]. rewrite Hn.
  assert (T : nth_error (tuples vs) i = Some (x, types fs)) by (unfold tuples; now rewrite nth_error_map, Hn). rewrite T.
  destruct (assoc String.eqb x index) as [z|]; [|reflexivity]. unfold run_ser. rewrite (find_ser (g := arms_of) (i := i) (fs := fs)); [|reflexivity|exact N|exact Hn].
  cbn [fst arms_of sa_binds sa_elems]. pose proof (elements_eq (calls n E) (ts := types fs) (fs := vals) [] L) as EQ. cbn [length plus app] in EQ. now rewrite EQ.
Qed.
Theorem indexer_deserialize_eq vs sa da n E index names d i : xdr_indexer (ItemEnum vs) = Some (sa, da) ->
  indexer_deserialize n E vs da names d i = deser (S n) E (TIndexer (tuples vs) index names d) i.
Proof.
  intros X. cbn [xdr_indexer] in X. apply indexer_arms_eq in X as (_ & _ & ->). unfold indexer_deserialize. cbn [deser].
  destruct (next_element read_i32 (10, i)) as [[[z|] s]|e| | |]; cbn [bind]; try reflexivity.
  destruct (with_dflt (assoc Z.eqb z names) d) as [x| |]; try reflexivity. unfold run_de.
  pose proof (find_de (g := arms_of) (fun _ => None) x vs 0 (fun _ _ => eq_refl)) as F. destruct (find_variant x vs 0) as [[k fs]|].
  - destruct F as (-> & -> & _). cbn [snd arms_of da_lets da_rets]. rewrite run_lets_eq.
    destruct (visit_fields_unwrap (map (deser n E) (types fs)) s) as [[l s']|e| | |] eqn:V; cbn [bind]; try reflexivity.
    apply visit_unwrap_length in V. rewrite map_length in V. rewrite <- V. now rewrite run_rets_eq.
  - destruct F as (-> & -> & _). reflexivity.
Qed.
Theorem union_serialize_eq vs sa da vt n E names d i x fs vals : xdr_union (ItemEnum vs) = Some (sa, da, vt) -> NoDup (map fst vs) ->
  nth_error vs i = Some (x, fs) -> length vals = length (types fs) -> (forall t, hd_error (types fs) = Some t -> t = vt) ->
  union_serialize n E vs sa i vals = calls (S n) E (TUnion (utuples vs) vt names d) (RVariant i vals).
Proof.
  intros X N Hn L HT. cbn [xdr_union] in X. destruct (union_arms None vs) as [[[sa' da'] [w|]]|] eqn:U; try discriminate. injection X as <- <- <-.
  apply union_arms_eq in U as (_ & -> & _). unfold union_serialize. cbn [calls]. rewrite Hn.
  assert (T : nth_error (utuples vs) i = Some (x, match types fs with [] => None | _ :: ts => Some ts end)) by (unfold utuples; now rewrite nth_error_map, Hn). rewrite T.
  unfold run_ser. rewrite (find_ser (g := uarms_of) (i := i) (fs := fs)); [|reflexivity|exact N|exact Hn].
  cbn [fst uarms_of sa_binds sa_elems]. pose proof (elements_eq (calls n E) (ts := types fs) (fs := vals) [] L) as EQ. cbn [length plus app] in EQ. rewrite EQ.
  destruct (types fs) as [|t ts]; [destruct vals; [reflexivity|discriminate]|]. now rewrite (HT t eq_refl).
Qed.
Theorem union_deserialize_eq vs sa da vt n E names d i : xdr_union (ItemEnum vs) = Some (sa, da, vt) ->
  union_deserialize n E vs da vt names d i = deser (S n) E (TUnion (utuples vs) vt names d) i.
Proof.
  intros X. cbn [xdr_union] in X. destruct (union_arms None vs) as [[[sa' da'] [w|]]|] eqn:U; try discriminate. injection X as <- <- <-.
  apply union_arms_eq in U as (_ & _ & -> & _). unfold union_deserialize. cbn [deser].
  destruct (next_element (deser n E w) (10, i)) as [[[v|] s]|e| | |]; cbn [bind]; try reflexivity.
  destruct (with_dflt (assoc rval_eqb v names) d) as [x| |]; try reflexivity. unfold run_de.
  pose proof (find_de (g := uarms_of) (fun _ => None) x vs 0 (fun _ _ => eq_refl)) as F. destruct (find_variant x vs 0) as [[k fs]|].
  - destruct F as (-> & _ & ->). cbn [snd uarms_of da_lets da_rets]. destruct (types fs) as [|t ts]; [reflexivity|]. cbn [tl]. rewrite run_lets_eq.
    destruct (visit_fields_unwrap (map (deser n E) ts) s) as [[l s']|e| | |] eqn:V; cbn [bind]; try reflexivity.
    apply visit_unwrap_length in V. rewrite map_length in V. rewrite <- V. cbn [run_rets].
    rewrite assoc_none; [|intros u W; apply in_rev, in_combine_l, in_map_iff in W as (j & W & _); discriminate].
    cbn. now rewrite run_rets_eq.
  - destruct F as (-> & _ & ->). reflexivity.
Qed.
