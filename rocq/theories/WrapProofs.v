(** C18: the length prefix of data of any length; C36: the type names that are accepted. *)
From Verif Require Import Base SpecUtf8 Utf8 Utf8Proofs SerModel RustTypes DeModel SpecXdr SpecTypes
  SpecDecode SpecMisc XdrFacts EncProofs ReadFacts RvalFacts DecProofs CodecProofs TotalProofs
  NormProofs CodecLemmas.
Set Implicit Arguments.
Unset Strict Implicit.

Lemma prefix_wraps E t v b k : encodes E t v b -> wire_len t v = Some k ->
  exists w r, b = w ++ r /\ unsigned 4 (k mod 2 ^ 32) w.
Proof.
  intros H W. apply encodes_run in H as (n & s & H1 & H2). specialize (H2 []). cbn [app] in H2.
  assert (U : forall k, unsigned 4 (k mod 2 ^ 32) (be_bytes 4 (wrap_u 32 k))).
  { intros j. unfold wrap_u. apply unsigned_be. now apply Z.mod_pos_bound. }
  destruct n; [discriminate|].
  destruct t; try discriminate; destruct v; try discriminate; cbn in W; injection W as <-;
    cbn [calls] in H1.
  - injection H1 as <-. cbn [serialize] in H2. unfold serialize_str, serialize_bytes, serialize_u32 in H2.
    cbn [bind app] in H2. exists (be_bytes 4 (wrap_u 32 (zlen bs))).
    destruct (4 - zlen bs mod 4 <? 4); injection H2 as <-; rewrite <- ?app_assoc; (eexists; split; [reflexivity|]; apply U).
  - injection H1 as <-. cbn [serialize] in H2. unfold serialize_str, serialize_bytes, serialize_u32 in H2.
    cbn [bind app] in H2. exists (be_bytes 4 (wrap_u 32 (zlen bs))).
    destruct (4 - zlen bs mod 4 <? 4); injection H2 as <-; rewrite <- ?app_assoc; (eexists; split; [reflexivity|]; apply U).
  - apply bind_ok in H1 as (l & _ & H1). injection H1 as <-.
    change (serialize (SSeq (Some (zlen vs)) l) [])
      with (foldM serialize l (be_bytes 4 (wrap_u 32 (zlen vs)))) in H2.
    change (foldM serialize l) with (serialize (STuple l)) in H2. rewrite c29 in H2.
    destruct (to_bytes_calls (STuple l)); try discriminate. apply ok_sym in H2.
    eexists _, _. split; [exact H2|]. apply U.
  - apply bind_ok in H1 as (l & _ & H1). injection H1 as <-.
    change (serialize (SMap (Some (zlen kvs)) l) [])
      with (foldM (fun '(k, v) o => o' <- serialize k o;; serialize v o') l (be_bytes 4 (wrap_u 32 (zlen kvs)))) in H2.
    assert (B : behaves (foldM (fun '(k, v) o => o' <- serialize k o;; serialize v o') l)
                  (flat_map (fun '(k, v) => faults k ++ faults v) l)).
    { apply behaves_fold. apply Forall_forall. intros [a c] _.
      apply behaves_bind with (r1 := serialize a); apply serialize_behaves. }
    destruct (flat_map (fun '(k, v) => faults k ++ faults v) l) as [|f fl]; cbn in B.
    + destruct B as (x & _ & B). rewrite B in H2. apply ok_sym in H2.
      eexists _, _. split; [exact H2|]. apply U.
    + rewrite B in H2. destruct f; discriminate.
  - injection H1 as <-. unfold calls_opaque_variable in H2.
    change (serialize (SSeq (Some (zlen bs)) (map SU32 (enumerate_u32 bs))) [])
      with (foldM serialize (map SU32 (enumerate_u32 bs)) (be_bytes 4 (wrap_u 32 (zlen bs)))) in H2.
    change (foldM serialize (map SU32 (enumerate_u32 bs)))
      with (serialize (STuple (map SU32 (enumerate_u32 bs)))) in H2. rewrite c29 in H2.
    destruct (to_bytes_calls (STuple (map SU32 (enumerate_u32 bs)))); try discriminate. apply ok_sym in H2.
    eexists _, _. split; [exact H2|]. apply U.
Qed.

Lemma read_small E t i n v k : from_bytes n E t i = Ok v -> wire_len t v = Some k -> k < 2 ^ 32.
Proof.
  intros H W. unfold from_bytes in H. apply bind_ok in H as ([v' r] & H & K).
  destruct r; [|discriminate]. injection K as ->. apply deser_accepts in H as (c & _ & A).
  assert (U : forall z w, unsigned 4 z w -> z < 2 ^ 32) by (intros z w U; apply unsigned_range in U; exact (proj2 U)).
  destruct t; try discriminate; destruct v; try discriminate; injection W as <-; inversion A; subst; eauto.
  match goal with L : last_wins _ _ |- _ => apply last_wins_len in L end.
  match goal with K : unsigned 4 _ _ |- _ => apply U in K end. lia.
Qed.
Lemma prefix_fits E t v b k : encodes E t v b -> wire_len t v = Some k ->
  ((exists w r, b = w ++ r /\ unsigned 4 k w) <-> k < 2 ^ 32).
Proof.
  intros H W. split; [|exact (c18_fits H W)].
  intros (w & r & _ & U). apply unsigned_range in U. exact (proj2 U).
Qed.

From Verif Require Import Nom NomFacts Keyword Ast ParserModel SpecGrammar SpecParse ParseSound ParseComplete ParserLemmas
  SpecPrint PrintProofs.
Lemma type_name_exact T w x : good_name T -> good_name x -> spaces w -> w <> [] ->
  (greturns (fun n => parse n (typedef_text (chars T ++ w ++ chars x)))
            (GOk [DefType (TdDecl (DVariable (TsIdent T) x))])
   <-> strip (chars "void"%string) (chars T) = None /\ ~ In T ["char"; "short"]%string).
Proof.
  intros GT Gx S N. split.
  - intros P. apply parsed_writable in P as [G Sp]. inversion G as [|? ? G1 _]; inversion Sp as [|? ? S1 _]; subst.
    cbn in G1, S1. split; [apply G1|apply S1].
  - intros [V F]. exact (c36_partial GT Gx V F S N).
Qed.

Lemma split_once {A} (a : A) p : forall p' q q', ~ In a p -> ~ In a q -> p ++ a :: q = p' ++ a :: q' -> p = p'.
Proof.
  induction p as [|b p IH]; intros [|b' p'] q q' N M E; cbn in E; trivial.
  - injection E as _ E. destruct M. rewrite E. apply in_or_app. right. now left.
  - injection E as E _. destruct N. now left.
  - injection E as -> E. f_equal. apply (IH p' q q'); trivial. intros K. apply N. now right.
Qed.
Lemma builtin_space t u i j : builtin t u -> written (w_type t) i j -> starts is_space j.
Proof.
  intros B W. destruct B; cbn [w_type w_unsigned] in W;
    repeat match goal with H : written (_ :: _) _ _ |- _ => inversion H; subst; clear H end;
    repeat match goal with H : written [] _ _ |- _ => inversion H; subst; clear H end;
    match goal with
    | H : piece_text (Word _) _ _ |- _ => exact (proj2 H)
    | H : piece_text Unsigned _ _ |- _ => exact (proj1 H)
    end.
Qed.
Lemma builtin_end t u : builtin t u -> (exists v c, u = v ++ [c] /\ is_space c = false) /\ ~ In "*"%char u.
Proof.
  assert (N : forall w, spaces w -> ~ In "*"%char w).
  { intros w S I. unfold spaces in S. rewrite Forall_forall in S. now apply S in I. }
  assert (L : forall u, u <> [] -> is_space (last u " "%char) = false -> exists v c, u = v ++ [c] /\ is_space c = false).
  { intros a Z K. exists (removelast a), (last a " "%char). split; [now apply app_removelast_last|exact K]. }
  intros B. destruct B; split; try (cbn; intuition discriminate); try (apply L; [discriminate|reflexivity]).
  - exists (chars "unsigned" ++ w ++ chars "in"), "t"%char. rewrite <- !app_assoc. now split.
  - rewrite !in_app_iff. intros [I|[I|I]]; [|now apply (N w)|]; cbn in I; intuition discriminate.
  - exists (chars "unsigned" ++ w ++ chars "hype"), "r"%char. rewrite <- !app_assoc. now split.
  - rewrite !in_app_iff. intros [I|[I|I]]; [|now apply (N w)|]; cbn in I; intuition discriminate.
Qed.
Lemma spaces_last w : spaces w -> w <> [] -> exists v c, w = v ++ [c] /\ is_space c = true.
Proof.
  intros S N. exists (removelast w), (last w " "%char). pose proof (@app_removelast_last _ w " "%char N) as K.
  split; [exact K|]. unfold spaces in S. rewrite K in S. apply Forall_app in S as [_ S]. now inversion S.
Qed.
Lemma w_cons_inv p l i r : written (p :: l) i r -> exists a j, i = a ++ j /\ piece_text p a j /\ written l j r.
Proof. intros W. inversion W; subst. eauto. Qed.
Lemma pointer_exact t u w x : builtin t u -> spaces w -> good_name x ->
  (greturns (fun n => parse n (typedef_text (u ++ w ++ chars "*" ++ chars x))) (GOk [DefType (TdDecl (DOption t x))])
   <-> w <> []).
Proof.
  intros B S G. split; [|intros N; now apply c37_partial].
  intros P ->. apply c32 in P as [_ W]. cbn [w_spec flat_map w_definition w_typedef w_decl] in W.
  apply w_cons_inv in W as (b0 & i0 & E0 & _ & W). cbn [app] in W.
  apply w_cons_inv in W as (b1 & i1 & -> & _ & W). apply w_cons_inv in W as (b2 & i2 & -> & _ & W2).
  rewrite <- !app_assoc in W2. apply w_app_inv in W2 as (j & W2 & W3). apply (builtin_space B) in W2 as St.
  assert (J : exists k, i2 = k ++ j).
  { clear - W2. revert W2. generalize (w_type t). intros l W. induction W as [|p l a i r _ _ IH]; [now exists []|].
    destruct IH as [k ->]. exists (a ++ k). now rewrite app_assoc. }
  destruct J as [k ->]. cbn [app] in W3.
  apply w_cons_inv in W3 as (b3 & i3 & -> & S3 & W3). apply w_cons_inv in W3 as (b4 & i4 & -> & S4 & _).
  cbn in S3, S4. subst b4.
  assert (N3 : b3 <> []) by (intros ->; cbn in St; discriminate).
  destruct (spaces_last S3 N3) as (v3 & c3 & -> & C3).
  destruct (builtin_end B) as [(v & c & -> & C) Nu].
  unfold typedef_text in E0.
  assert (K : (chars "typedef " ++ v ++ [c]) = (b0 ++ b1 ++ b2 ++ k ++ v3) ++ [c3]).
  { apply (@split_once _ "*"%char _ _ (chars x ++ chars ";") i4).
    - rewrite in_app_iff. intros [I|I]; [cbn in I; intuition discriminate|now apply Nu].
    - rewrite in_app_iff. intros [I|I]; [|cbn in I; intuition discriminate].
      apply good_name_chars in G. rewrite Forall_forall in G. now apply G in I.
    - rewrite <- !app_assoc in *. cbn [app] in *. exact E0. }
  rewrite app_assoc in K. apply app_inj_tail in K as [_ ->]. congruence.
Qed.
