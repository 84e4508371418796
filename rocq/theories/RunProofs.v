From Verif Require Import Base RustTypes RvalFacts DeModel SpecRust SpecMeaning SpecRun.
Set Implicit Arguments.
Unset Strict Implicit.
Local Open Scope string_scope.
Local Open Scope list_scope.

Lemma arms_run {K V} (eqb : K -> K -> bool) key (val : sexpr -> option V) d k : forall l table other,
  (forall p k', key p = Some k' -> p <> SpWild -> matches p d = eqb k k') -> arms key val l = Some (table, other) ->
  match assoc eqb k table with
  | Some r => exists e, taken_arm l d = Some e /\ val e = Some r
  | None => taken_arm l d = other
  end.
Proof.
  unfold taken_arm. induction l as [|[p e] l IH]; intros table other M H; [injection H as <- <-; easy|].
  cbn [arms] in H. destruct (match p with SpWild => true | _ => false end) eqn:W.
  - destruct p; try easy. injection H as <- <-. easy.
  - assert (N : p <> SpWild) by (intros ->; easy).
    assert (X : exists k' v r, key p = Some k' /\ val e = Some v /\ arms key val l = Some (r, other) /\ table = (k', v) :: r).
    { destruct p; try easy; destruct (key _) as [k'|] eqn:KE; try easy; destruct (val e) as [v|] eqn:VE; try easy;
        destruct (arms key val l) as [[r o]|] eqn:A; try easy; injection H as <- <-; now exists k', v, r. }
    destruct X as (k' & v & r & KE & VE & A & ->). cbn [find fst]. rewrite (M p k' KE N). cbn [assoc]. destruct (eqb k k'); [exists e; split; [reflexivity|exact VE]|]. exact (IH r other M A).
Qed.
Lemma ok_of_result {A} (val : sexpr -> option A) e a : ok_of val e = Some a -> result val e = Some (DVal a).
Proof. unfold ok_of. destruct (result val e) as [[| |]|]; try easy. now intros [= ->]. Qed.
Lemma int_matches z p k : int_key p = Some k -> p <> SpWild -> matches p (DyInt z) = Z.eqb z k.
Proof. intros H _. destruct p; try easy. cbn in *. destruct (String.eqb _ _); [|easy]. injection H as ->. apply Z.eqb_sym. Qed.
Lemma int_run {A} (val : sexpr -> option A) l table e d z : arms int_key (ok_of val) l = Some (table, Some e) -> result val e = Some d ->
  exists e, taken_arm l (DyInt z) = Some e /\ result val e = Some (with_dflt (assoc Z.eqb z table) d).
Proof.
  intros H R. pose proof (@arms_run _ _ Z.eqb _ _ (DyInt z) z l table _ (int_matches z) H) as X.
  destruct (assoc Z.eqb z table) as [a|]; [|now exists e]. destruct X as (e' & T & V). exists e'. split; [exact T|]. exact (ok_of_result V).
Qed.
Lemma by_self_method f ms l : by_self f ms = Some l -> exists q, method f ms = Some (q, l).
Proof. unfold by_self. destruct (method f ms) as [[[] l']|]; try easy. intros [= ->]. eauto. Qed.
Lemma by_i32_method f ms l : by_i32 f ms = Some l -> exists q, method f ms = Some (q, l).
Proof. unfold by_i32. destruct (method f ms) as [[[] l']|]; try easy. destruct (is_type _ _); [|easy]. intros [= ->]. eauto. Qed.
Lemma collect_nth {A B} (g : A -> option B) : forall l r, collect g l = Some r -> length r = length l /\
  forall i a b, nth_error l i = Some a -> nth_error r i = Some b -> g a = Some b.
Proof.
  induction l as [|a l IH]; intros r H; cbn in H; [injection H as <-; split; [easy|now intros []]|].
  destruct (g a) as [b|] eqn:G; [|easy]. destruct (collect g l) as [bs|]; [|easy]. injection H as <-. destruct (IH bs eq_refl) as [L N].
  split; [cbn; congruence|]. intros [|i] a' b' Ha Hb; cbn in *; [congruence|eauto].
Qed.
Lemma place_nth x : forall l i, place x l = Some i -> nth_error l i = Some x.
Proof.
  induction l as [|y l IH]; intros i H; [easy|]. cbn in H. destruct (String.eqb x y) eqn:E.
  - injection H as <-. apply String.eqb_eq in E as ->. easy.
  - destruct (place x l) as [j|]; [|easy]. injection H as <-. cbn. now apply IH.
Qed.

Section Items.
  Variable items : list sitem.

  Theorem signed32_runs x zs table d : signed32 items x = Some (TSigned32 zs table d) -> exists names,
    enum_variants items x = Some names /\ length zs = length names /\
    (forall i n z, nth_error names i = Some n -> nth_error zs i = Some z ->
       exists e, call_gives items (is_applied "AsRef" "i32") x "as_ref" (DyVariant x n 0) (SeRef e) /\ i32_value e = Some z) /\
    (forall z, exists e, call_gives items (is_applied "TryFrom" "i32") x "try_from" (DyInt z) e /\
       result (variant_index x names) e = Some (with_dflt (assoc Z.eqb z table) d)).
  Proof.
    unfold signed32. destruct (enum_variants items x) as [names|]; [|easy].
    destruct (impl_of items (is_applied "AsRef" "i32") x) as [[t ms]|] eqn:I; [|easy]. destruct (by_self "as_ref" ms) as [l|] eqn:M; [|easy]. apply by_self_method in M as [q M].
    destruct (arms _ _ l) as [[tab other]|] eqn:A; [|easy]. destruct other; [easy|]. destruct (collect _ names) as [zs'|] eqn:C; [|easy].
    destruct (impl_of items (is_applied "TryFrom" "i32") x) as [[t' ms']|] eqn:I'; [|easy]. destruct (by_i32 "try_from" ms') as [l'|] eqn:M'; [|easy]. apply by_i32_method in M' as [q' M'].
    destruct (arms int_key _ l') as [[tab' [e|]]|] eqn:A'; try easy. destruct (result _ e) as [d'|] eqn:R; [|easy]. intros [= -> -> ->].
    exists names. split; [easy|]. destruct (collect_nth C) as [L N]. split; [exact L|]. split.
    - intros i n z Hn Hz. pose proof (N i n z Hn Hz) as K. cbn in K.
      assert (MM : forall p k, variant_key x p = Some k -> p <> SpWild -> matches p (DyVariant x n 0) = String.eqb n k).
      { intros p k Hk _. destruct p as [| | |[g ps]|]; try easy. cbn in Hk. destruct g; [easy|]. destruct ps as [|a [|b [|]]]; try easy. cbn in Hk.
        destruct (String.eqb x a) eqn:E; [|easy]. injection Hk as ->. cbn. rewrite String.eqb_sym, E. cbn. apply String.eqb_sym. }
      pose proof (@arms_run _ _ String.eqb _ _ (DyVariant x n 0) n l tab None MM A) as X. rewrite K in X. destruct X as (e' & T & V).
      destruct e'; try easy. exists e'. split; [|exact V]. now exists t, ms, q, l.
    - intros z. destruct (int_run z A' R) as (e' & T & V). exists e'. split; [|exact V]. now exists t', ms', q', l'.
  Qed.

  Theorem indexer_runs x svs vs index names d : indexer items x svs = Some (TIndexer vs index names d) ->
    (forall v ts, assoc String.eqb v vs = Some ts ->
       exists e, call_gives items (is_type "XdrIndexer") x "index" (DyVariant x v (length ts)) e /\
         match assoc String.eqb v index with
         | Some z => i32_value e = Some z
         | None => result stringified e = Some DPanic
         end) /\
    (forall z, exists e, call_gives items (is_type "XdrIndexer") x "name_by_index" (DyInt z) e /\
       result stringified e = Some (with_dflt (assoc Z.eqb z names) d)).
  Proof.
    unfold indexer. destruct (collect (plain_variant items) svs) as [vs'|]; [|easy].
    destruct (impl_of items (is_type "XdrIndexer") x) as [[t ms]|] eqn:I; [|easy]. destruct (by_self "index" ms) as [l|] eqn:M; [|easy]. apply by_self_method in M as [q M].
    destruct (arms _ _ l) as [[tab other]|] eqn:A; [|easy].
    destruct (match other with Some e => _ | None => _ end) as [u|] eqn:O; [|easy].
    destruct (by_i32 "name_by_index" ms) as [l'|] eqn:M'; [|easy]. apply by_i32_method in M' as [q' M'].
    destruct (arms int_key _ l') as [[tab' [e|]]|] eqn:A'; try easy. destruct (result _ e) as [d'|] eqn:R; [|easy]. intros [= -> -> -> ->].
    split.
    - intros v ts V.
      assert (MM : forall p k, pattern_key x vs p = Some k -> p <> SpWild -> matches p (DyVariant x v (length ts)) = String.eqb v k).
      { intros p k Hk _. unfold pattern_key in Hk. destruct p as [| | |qq|qq ps]; try easy.
        - destruct qq as [g ps]. destruct g; [easy|]. destruct ps as [|a [|b [|]]]; try easy. cbn [two_names] in Hk. destruct (assoc String.eqb b vs) as [ts'|] eqn:B; [|easy].
          destruct (String.eqb x a && Nat.eqb (length ts') 0) eqn:E; [|easy]. injection Hk as ->. apply andb_true_iff in E as [E L]. apply Nat.eqb_eq in L. apply String.eqb_eq in E as <-. cbn.
          rewrite (String.eqb_sym k v). destruct (String.eqb v k) eqn:F.
          + apply String.eqb_eq in F as ->. assert (ts' = ts) as -> by congruence. rewrite L. now rewrite String.eqb_refl.
          + destruct (length ts); [now rewrite andb_false_r|easy].
        - destruct (forallb _ ps) eqn:W; [|easy]. destruct qq as [g ps']. destruct g; [easy|]. destruct ps' as [|a [|b [|]]]; try easy. cbn [two_names] in Hk. destruct (assoc String.eqb b vs) as [ts'|] eqn:B; [|easy].
          destruct (String.eqb x a && Nat.eqb (length ts') (length ps)) eqn:E; [|easy]. injection Hk as ->. apply andb_true_iff in E as [E L]. apply Nat.eqb_eq in L. apply String.eqb_eq in E as <-. cbn [matches].
          rewrite W, andb_true_r, String.eqb_refl, (String.eqb_sym k v). destruct (String.eqb v k) eqn:F; [|easy].
          apply String.eqb_eq in F as ->. assert (ts' = ts) as -> by congruence. rewrite L. apply Nat.eqb_refl. }
      pose proof (@arms_run _ _ String.eqb _ _ (DyVariant x v (length ts)) v l index other MM A) as X. destruct (assoc String.eqb v index) as [z|] eqn:Z.
      + destruct X as (e' & T & K). exists e'. split; [|exact K]. now exists t, ms, q, l.
      + destruct other as [o|].
        * exists o. split; [now exists t, ms, q, l|]. destruct (result stringified o) as [[| |]|]; easy.
        * exfalso. destruct (forallb _ vs) eqn:FA; [|easy]. rewrite forallb_forall in FA.
          assert (VI : exists ts', In (v, ts') vs).
          { clear - V. induction vs as [|[y s] vs IH]; [easy|]. cbn in V. destruct (String.eqb v y) eqn:E; [apply String.eqb_eq in E as <-; exists s; now left|].
            destruct (IH V) as [ts' h]. exists ts'. now right. }
          destruct VI as [ts' VI]. specialize (FA _ VI). cbn in FA. clear - FA Z. unfold has in FA. induction index as [|[y s] l IH]; [easy|]. cbn in *.
          destruct (String.eqb v y); [easy|]. now apply IH.
    - intros z. destruct (int_run z A' R) as (e' & T & V). exists e'. split; [|exact V]. now exists t, ms, q', l'.
  Qed.

  Lemma key_int dt z s k : value_key items dt (SpInt z s) = Some k -> dt = TInt false W32 /\ k = RInt z.
  Proof. destruct dt as [|sg w| | | | | | | | | | | | | | | | | | | | | | |]; cbn; try easy. destruct sg; [easy|]. destruct w; try easy. destruct (String.eqb s "u32"); [|easy]. now intros [= <-]. Qed.
  Lemma key_bool dt b k : value_key items dt (SpBool b) = Some k -> dt = TBool /\ k = RBool b.
  Proof. destruct dt; cbn; try easy. now intros [= <-]. Qed.
  Lemma key_path dt q k : value_key items dt (SpPath q) = Some k -> exists x v ns i, dt = TRef x /\ q = Path false [x; v] /\
    enum_variants items x = Some ns /\ place v ns = Some i /\ k = RVariant i [].
  Proof.
    destruct dt; cbn; try easy. destruct q as [[] [|a [|b [|]]]]; cbn; try easy. destruct (String.eqb _ a) eqn:E; [|easy]. apply String.eqb_eq in E as <-.
    destruct (enum_variants items _) as [ns|] eqn:EV; [|easy]. destruct (place b ns) as [i|] eqn:P; [|easy]. intros [= <-]. now exists name, b, ns, i.
  Qed.
  Lemma arms_keys {K V} key (val : sexpr -> option V) l : forall table other k v, arms key val l = Some (table, other) -> In (k, v) table -> exists p, key p = Some (k : K).
  Proof.
    induction l as [|[p e] l IH]; intros table other k v H I; [injection H as <- <-; easy|]. cbn in H.
    assert (X : (exists k' v' r, key p = Some k' /\ arms key val l = Some (r, other) /\ table = (k', v') :: r) \/ table = []).
    { destruct p; try (right; now injection H as <- <-); left; destruct (key _) as [k'|] eqn:KE; try easy; destruct (val e) as [v'|] eqn:VE; try easy;
        destruct (arms key val l) as [[r o]|] eqn:A; try easy; injection H as <- <-; now exists k', v', r. }
    destruct X as [(k' & v' & r & KE & A & ->)| ->]; [|easy]. destruct I as [[= -> ->]|I]; [eauto|]. exact (IH r other k v A I).
  Qed.
  Lemma has_bool_assoc b (t : list (rval * string)) : has_bool b t = true -> assoc rval_eqb (RBool b) t <> None.
  Proof.
    induction t as [|[k v] t IH]; [easy|]. cbn -[rval_eqb]. intros H. destruct (rval_eqb (RBool b) k) eqn:E; [easy|]. apply IH. apply orb_true_iff in H as [H|H]; [|exact H].
    destruct k; try easy. apply Bool.eqb_prop in H as <-. exfalso. assert (E' := proj2 (rval_eqb_spec (RBool b) (RBool b)) eq_refl). congruence.
  Qed.
  Theorem union_runs x svs vs dt names d : union items x svs = Some (TUnion vs dt names d) ->
    forall v dv, dyn_of items dt v = Some dv -> (forall y ns, dt = TRef y -> enum_variants items y = Some ns -> NoDup ns) ->
    exists e, call_gives items is_union x "name_by_value" dv e /\ result stringified e = Some (with_dflt (assoc rval_eqb v names) d).
  Proof.
    unfold union. fold is_union. destruct (impl_of items _ x) as [[t ms]|] eqn:I; [|easy]. destruct (match applied "XdrUnion" t with Some _ => _ | None => _ end) as [disc|]; [|easy].
    destruct (type_meaning items _) as [dt'|]; [|easy]. destruct (collect _ svs) as [vs'|]; [|easy].
    destruct (method "name_by_value" ms) as [[q l]|] eqn:M; [|easy].
    destruct (match q with PaSelf => None | _ => _ end) as [l0|] eqn:Q; [|easy].
    assert (l0 = l) as ->. { destruct q as [|qx [|r qt|]]; try easy. destruct (is_type disc qt); [|easy]. now injection Q. }
    destruct (arms _ _ l) as [[tab other]|] eqn:A; [|easy]. destruct (match other with Some e => _ | None => _ end) as [d'|] eqn:O; [|easy]. intros [= -> -> -> ->] v dv D U.
    assert (MM : forall p k, value_key items dt p = Some k -> p <> SpWild -> matches p dv = rval_eqb v k).
    { intros p k Hk _. assert (R : matches p dv = true <-> v = k).
      2: { destruct (matches p dv) eqn:E; destruct (rval_eqb v k) eqn:F; try easy.
           - assert (E' := proj2 (rval_eqb_spec v k) (proj1 R eq_refl)). congruence.
           - apply rval_eqb_spec in F. now apply R in F. }
      destruct p as [|z s|b|pa|]; try easy.
      - apply key_int in Hk as [-> ->]. destruct v; try easy. injection D as <-. cbn. rewrite Z.eqb_eq. split; congruence.
      - apply key_bool in Hk as [-> ->]. destruct v; try easy. injection D as <-. cbn. split; [intros E; now apply Bool.eqb_prop in E as ->|intros [= ->]; apply Bool.eqb_reflx].
      - apply key_path in Hk as (y & n' & ns & j & -> & -> & EV & P & ->). destruct v as [| | | | | | | | | | |i [|]]; try easy. cbn in D. rewrite EV in D.
        destruct (nth_error ns i) as [n|] eqn:N; [|easy]. injection D as <-. cbn. rewrite String.eqb_refl. cbn. rewrite String.eqb_eq. apply place_nth in P.
        specialize (U _ _ eq_refl EV). split.
        + intros ->. f_equal. apply (proj1 (NoDup_nth_error ns) U); [|congruence]. apply nth_error_Some. congruence.
        + intros [= ->]. congruence. }
    pose proof (@arms_run _ _ rval_eqb _ _ dv v l names other MM A) as X. destruct (assoc rval_eqb v names) as [n|] eqn:Z.
    - destruct X as (e' & T & V). exists e'. split; [now exists t, ms, q, l|]. cbn [with_dflt]. exact (ok_of_result V).
    - destruct other as [o|]; [exists o; split; [now exists t, ms, q, l|exact O]|]. exfalso. destruct (has_bool true names) eqn:B1; [|easy]. destruct (has_bool false names) eqn:B2; [|easy].
      assert (dt = TBool) as ->.
      { pose proof B1 as B. unfold has_bool in B. apply existsb_exists in B as ([k s] & B & K). destruct k; try easy. destruct (arms_keys A B) as (p & P).
        destruct p; [easy|apply key_int in P as [_ P]|apply key_bool in P as [P _]|apply key_path in P as (? & ? & ? & ? & _ & _ & _ & _ & P)|]; easy. }
      destruct v as [[]| | | | | | | | | | |]; try easy; [now destruct (has_bool_assoc B1)|now destruct (has_bool_assoc B2)].
  Qed.
End Items.
