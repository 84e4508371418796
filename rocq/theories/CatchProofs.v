From Verif Require Import Base Utf8 RustTypes SerModel SpecTypes SpecXdr SpecMisc DeModel ReadFacts SpecDecode DecProofs CodecProofs TotalProofs CodecLemmas StreamProofs
  VisitModel SpecVisit VisitProofs CatchModel SpecCatch.
Set Implicit Arguments.
Unset Strict Implicit.
Local Open Scope list_scope.

Scheme cimpl_mut := Induction for cimpl Sort Prop with cact_mut := Induction for cact Sort Prop.
Combined Scheme cimpl_cact_ind from cimpl_mut, cact_mut.

(** ** One call *)
Definition agree (c : error -> Prop) {A} (p : parser A) (x : st -> out A) : Prop := forall i,
  exists u, i = u ++ snd (x i) /\
    match fst (x i) with
    | Ok a => p i = Ok (a, snd (x i)) /\ zlen u mod 4 = 0
    | Err e => p i = Err e /\ (c e -> zlen u mod 4 = 0)
    | Panic => p i = Panic
    | _ => False
    end.
Lemma agree_keep c {A} (p : parser A) : local p -> (forall i, p i <> Fuel /\ p i <> Stuck) -> agree c p (keep p).
Proof.
  intros L N i. unfold keep. destruct (p i) as [[a j]|e| | |] eqn:P; cbn.
  - apply L in P as (u & -> & U & _). eauto.
  - exists []. split; [easy|]. split; [easy|]. easy.
  - now exists [].
  - now destruct (N i).
  - now destruct (N i).
Qed.
Lemma agree_weak (c c' : error -> Prop) {A} (p : parser A) x : (forall e, c' e -> c e) -> agree c p x -> agree c' p x.
Proof. intros W H i. destruct (H i) as (u & E & M). exists u. split; [exact E|]. destruct (fst (x i)); try exact M. destruct M as [M K]. split; [exact M|auto]. Qed.
Lemma agree_map c {A B} (p : parser A) x (g : A -> B) : agree c p x -> agree c (fun i => '(a, i) <- p i;; Ok (g a, i)) (fun i => andthen (x i) (fun a i => (Ok (g a), i))).
Proof.
  intros H i. destruct (H i) as (u & E & M). exists u. destruct (x i) as [[a|e| | |] j]; cbn in *; try tauto.
  - destruct M as [-> M]. now split.
  - destruct M as [-> M]. now split.
  - rewrite M. now split.
Qed.
Lemma ordinary {A} (p : parser A) i : p i <> Fuel -> p i <> Stuck -> p i <> Fuel /\ p i <> Stuck.
Proof. easy. Qed.
Lemma read_ordinary k i : read k i <> Fuel /\ read k i <> Stuck.
Proof. unfold read. now destruct (zlen i <? k). Qed.
Lemma map_ordinary {A B} (p : parser A) (g : A -> B) : (forall i, p i <> Fuel /\ p i <> Stuck) -> forall i,
  ('(a, i) <- p i;; Ok (g a, i)) <> Fuel /\ ('(a, i) <- p i;; Ok (g a, i)) <> Stuck.
Proof. intros H i. specialize (H i). now destruct (p i) as [[a j]|e| | |]. Qed.
Lemma u32_ordinary i : read_u32 i <> Fuel /\ read_u32 i <> Stuck.
Proof. apply (@map_ordinary _ _ (read 4) be_val). apply read_ordinary. Qed.
Lemma i32_ordinary i : read_i32 i <> Fuel /\ read_i32 i <> Stuck.
Proof. apply (@map_ordinary _ _ (read 4) (fun v => wrap_s 32 (be_val v))). apply read_ordinary. Qed.
Lemma u64_ordinary i : read_u64 i <> Fuel /\ read_u64 i <> Stuck.
Proof. apply (@map_ordinary _ _ (read 8) be_val). apply read_ordinary. Qed.
Lemma i64_ordinary i : read_i64 i <> Fuel /\ read_i64 i <> Stuck.
Proof. apply (@map_ordinary _ _ (read 8) (fun v => wrap_s 64 (be_val v))). apply read_ordinary. Qed.
Lemma int_ordinary s w i : de_int s w i <> Fuel /\ de_int s w i <> Stuck.
Proof.
  destruct s, w; unfold de_int; first [apply i32_ordinary|apply u32_ordinary|apply i64_ordinary|apply u64_ordinary|easy|apply map_ordinary; first [apply i32_ordinary|apply u32_ordinary]].
Qed.
Lemma agree_char c : agree c read_char x_char.
Proof.
  intros i. unfold x_char, read_char. destruct (agree_keep c local_u32 u32_ordinary i) as (u & E & M). exists u.
  destruct (keep read_u32 i) as [[a|e| | |] j]; cbn in *; try tauto.
  - destruct M as [-> M]. cbn. destruct (char_ok a); cbn; now split.
  - destruct M as [-> M]. now split.
  - rewrite M. now split.
Qed.
(** the data and its padding *)
Lemma x_data (ok : list byte -> bool) size i : 0 <= size ->
  let x := andthen (keep (read size) i) (fun v i =>
    if ok v then if 4 - size mod 4 <? 4 then andthen (x_skip (4 - size mod 4) i) (fun _ i => (Ok v, i)) else (Ok v, i) else (Err EEncoding, i)) in
  exists u, i = u ++ snd x /\
    match fst x with
    | Ok a => ('(v, i) <- read size i;;
        if ok v then if 4 - size mod 4 <? 4 then i <- slice_from (4 - size mod 4) i;; Ok (v, i) else Ok (v, i) else Err EEncoding) = Ok (a, snd x) /\ zlen u mod 4 = 0
    | Err e => ('(v, i) <- read size i;;
        if ok v then if 4 - size mod 4 <? 4 then i <- slice_from (4 - size mod 4) i;; Ok (v, i) else Ok (v, i) else Err EEncoding) = Err e /\
        (e <> EEncoding \/ (forall v, ok v = true) -> zlen u mod 4 = 0)
    | Panic => ('(v, i) <- read size i;;
        if ok v then if 4 - size mod 4 <? 4 then i <- slice_from (4 - size mod 4) i;; Ok (v, i) else Ok (v, i) else Err EEncoding) = Panic
    | _ => False
    end.
Proof.
  intros Z0. unfold keep. destruct (read_cases i Z0) as [(a & j & -> & L & ->)|[L ->]]; cbn [andthen bind].
  - destruct (ok a) eqn:K.
    + destruct (Z.ltb_spec (4 - size mod 4) 4) as [P|P].
      * unfold x_skip, slice_from. destruct (Z.ltb_spec (zlen j) (4 - size mod 4)) as [Q|Q]; cbn [andthen fst snd bind].
        -- exists a. now split.
        -- exists (a ++ firstn (Z.to_nat (4 - size mod 4)) j). rewrite <- app_assoc, firstn_skipn. split; [easy|]. split; [easy|].
           rewrite zlen_app. unfold zlen at 2. rewrite firstn_length. unfold zlen in Q, L |- *. lia.
      * cbn. exists a. split; [easy|]. split; [easy|]. lia.
    + cbn. exists a. split; [easy|]. split; [easy|]. intros [N|N]; [easy|]. specialize (N a). congruence.
  - cbn. exists []. split; [easy|]. split; easy.
Qed.
Lemma x_sized c {A} (p : Z -> parser A) (x : Z -> st -> out A) : (forall z, 0 <= z -> agree c (p z) (x z)) ->
  agree c (fun i => '(z, i) <- read_u32 i;; p z i) (fun i => andthen (keep read_u32 i) x).
Proof.
  intros H i. destruct (agree_keep c local_u32 u32_ordinary i) as (u & E & M). destruct (keep read_u32 i) as [[z|e| | |] j] eqn:K; cbn in *; try tauto.
  - destruct M as [M U]. rewrite M. cbn. destruct (H z (u32_nonneg M) j) as (u' & E' & M'). exists (u ++ u'). rewrite <- app_assoc, <- E'. split; [exact E|].
    rewrite zlen_app. destruct (fst (x z j)); try exact M'.
    + destruct M' as [-> M']. split; [easy|lia].
    + destruct M' as [-> M']. split; [easy|]. intros C. specialize (M' C). lia.
  - exists u. destruct M as [-> M]. now split.
  - exists u. rewrite M. now split.
Qed.
Lemma agree_string : agree (fun e => e <> EEncoding) read_string x_string.
Proof.
  apply x_sized. intros z Z0 i. destruct (@x_data utf8_ok z i Z0) as (u & E & M). exists u. split; [exact E|]. cbv zeta in *.
  match goal with |- match fst ?x with _ => _ end => destruct (fst x) end; try exact M. destruct M as [M K]. split; [exact M|auto].
Qed.
Lemma agree_bytes c : agree c read_bytes x_bytes.
Proof.
  apply x_sized. intros z Z0 i. destruct (@x_data (fun _ => true) z i Z0) as (u & E & M). exists u. split; [exact E|]. cbv zeta in *. cbv iota beta in M.
  match goal with |- match fst ?x with _ => _ end => destruct (fst x) end; try exact M. destruct M as [M K]. split; [exact M|auto].
Qed.
Lemma visit_ordinary q i : ~ In q [AChar; AStr; AString; AIdentifier; ABytes; AByteBuf] -> visit_of q i <> Fuel /\ visit_of q i <> Stuck.
Proof.
  intros N. destruct q; unfold visit_of; try easy; try (now destruct N; cbn; tauto).
  - apply (@map_ordinary _ _ _ (fun z => VsBool (negb (z =? 0)))), u32_ordinary.
  - apply (@map_ordinary _ _ _ VsInt), int_ordinary.
  - apply (@map_ordinary _ _ _ VsF32), u32_ordinary.
  - apply (@map_ordinary _ _ _ VsF64), u64_ordinary.
  - apply (@map_ordinary _ _ _ (fun z => if z =? 0 then VsNone else VsSome)), u32_ordinary.
  - apply (@map_ordinary _ _ _ VsSeq), u32_ordinary.
  - apply (@map_ordinary _ _ _ VsMap), u32_ordinary.
Qed.
Lemma agree_visit q : agree (fun e => e <> EEncoding \/ ~ text_ask q) (visit_of q) (x_visit q).
Proof.
  destruct q; unfold x_visit; try (apply agree_keep; [apply local_visit|intros i; apply visit_ordinary; cbn; intuition discriminate]).
  - apply (@agree_map _ _ _ _ _ VsChar), agree_char.
  - apply (@agree_map _ _ _ _ _ VsStr). eapply agree_weak; [|apply agree_string]. intros e [H|[]]; [exact H|cbn; tauto].
  - apply (@agree_map _ _ _ _ _ VsStr). eapply agree_weak; [|apply agree_string]. intros e [H|[]]; [exact H|cbn; tauto].
  - apply (@agree_map _ _ _ _ _ VsBytes), agree_bytes.
  - apply (@agree_map _ _ _ _ _ VsBytes), agree_bytes.
  - apply (@agree_map _ _ _ _ _ VsStr). eapply agree_weak; [|apply agree_string]. intros e [H|[]]; [exact H|cbn; tauto].
Qed.

(** ** Runs *)
(** what a run takes is a beginning of the input; aligned under a condition *)
Definition taken (ok : Prop) (err : error -> Prop) {A} (o : out A) (i : st) : Prop :=
  exists u, i = u ++ snd o /\
    match fst o with Ok _ => ok -> zlen u mod 4 = 0 | Err e => err e -> zlen u mod 4 = 0 | Panic => True | _ => False end.
Lemma taken_here ok err {A} (r : ending A) i : taken ok err (ending_res r, i) i.
Proof. exists []. split; [easy|]. now destruct r. Qed.
Lemma taken_after ok err {A} (o : out A) u i : zlen u mod 4 = 0 -> taken ok err o i -> taken ok err o (u ++ i).
Proof.
  intros U (v & -> & M). exists (u ++ v). rewrite app_assoc. split; [easy|]. rewrite zlen_app. destruct (fst o); try exact M; intros C; specialize (M C); lia.
Qed.
Lemma taken_catching (ok : Prop) (err err' : error -> Prop) {A B} (o : out B) (k : B + error -> st -> out A) i :
  taken True err' o i ->
  (forall b j, taken ok err (k (inl b) j) j) ->
  (forall e j, fst o = Err e -> (err' e /\ taken ok err (k (inr e) j) j) \/ (k (inr e) j = (Err e, j) /\ (err e -> err' e))) ->
  taken ok err (catching o k) i.
Proof.
  intros (u & -> & M) K F. destruct o as [[b|e| | |] j]; cbn in *; try tauto.
  - apply taken_after; [now apply M|apply K].
  - destruct (F e j eq_refl) as [[E T]|[-> E]].
    + apply taken_after; [now apply M|exact T].
    + exists u. split; [easy|]. cbn. auto.
  - now exists u.
Qed.
Lemma taken_catch_any {A B} (o : out B) (k : B + error -> st -> out A) i :
  taken False (fun _ => False) o i -> (forall r j, taken False (fun _ => False) (k r j) j) -> taken False (fun _ => False) (catching o k) i.
Proof.
  intros (u & -> & M) K. destruct o as [[b|e| | |] j]; cbn in *; try tauto.
  - destruct (K (inl b) j) as (v & E & N). exists (u ++ v). rewrite <- app_assoc, <- E. split; [easy|]. destruct (fst _); tauto.
  - destruct (K (inr e) j) as (v & E & N). exists (u ++ v). rewrite <- app_assoc, <- E. split; [easy|]. destruct (fst _); tauto.
  - now exists u.
Qed.
Lemma taken_ask (ok : Prop) (err : error -> Prop) {A} q (on : visit -> cact A) i :
  (forall e, err e -> e <> EEncoding \/ ~ text_ask q) ->
  (forall v j, taken ok err (crun_act (on v) (count_of v) j) j) -> taken ok err (andthen (x_visit q i) (fun v i => crun_act (on v) (count_of v) i)) i.
Proof.
  intros E K. destruct (agree_visit q i) as (u & U & M). destruct (x_visit q i) as [[v|e| | |] j]; cbn in *; try tauto.
  - subst i. apply taken_after; [tauto|apply K].
  - exists u. split; [easy|]. cbn. intros X. apply M. auto.
  - now exists u.
Qed.
Lemma taken_variant ok err {A B} (seed : Z -> ending B) (k : B -> cact A) catch c i :
  (forall b j, taken ok err (crun_act (k b) c j) j) -> taken ok err (crun_act (CVariant seed k catch) c i) i.
Proof.
  intros K. cbn [crun_act]. destruct (agree_keep (fun _ => True) local_i32 i32_ordinary i) as (u & U & M). destruct (keep read_i32 i) as [[z|e| | |] j]; cbn in *; try tauto; subst i.
  - apply taken_after; [tauto|]. destruct (z <? 0); [apply taken_here|]. destruct (seed z); cbn; [apply K|apply taken_here|now exists []].
  - apply taken_after; [tauto|]. apply taken_here.
  - now exists u.
Qed.

Lemma crun_prefix : (forall A (p : cimpl A), forall i, taken False (fun _ => False) (crun p i) i) /\
  (forall A (a : cact A), forall c i, taken False (fun _ => False) (crun_act a c i) i).
Proof.
  apply cimpl_cact_ind; intros.
  - cbn. apply taken_ask; [tauto|]. intros. apply H.
  - cbn. apply taken_catch_any; [apply H|]. intros. apply taken_here.
  - apply taken_here.
  - apply H.
  - cbn. destruct (c =? 0); [apply H0|]. apply taken_catch_any; [apply H|]. intros. apply H0.
  - cbn. apply taken_catch_any; [apply H|]. intros. apply H0.
  - apply taken_variant. intros. apply H.
Qed.
Lemma crun_textless : (forall A (p : cimpl A), textless p -> forall i, taken True (fun _ => True) (crun p i) i) /\
  (forall A (a : cact A), textless_act a -> forall c i, taken True (fun _ => True) (crun_act a c i) i).
Proof.
  apply cimpl_cact_ind; intros.
  - cbn in *. destruct H0 as [N H0]. apply taken_ask; [now right|]. intros. now apply H.
  - cbn in *. eapply taken_catching; [now apply H| |]; intros; [|left; split; [easy|]]; apply taken_here.
  - apply taken_here.
  - now apply H.
  - cbn in *. destruct H1 as [T H1]. destruct (c =? 0); [now apply H0|]. eapply taken_catching; [now apply H| |]; intros; [|left; split; [easy|]]; now apply H0.
  - cbn in *. destruct H1 as [T H1]. eapply taken_catching; [now apply H| |]; intros; [|left; split; [easy|]]; now apply H0.
  - apply taken_variant. intros. apply H. cbn in H0. apply H0.
Qed.
Lemma crun_careful : (forall A (p : cimpl A), careful p -> forall i, taken True (fun e => e <> EEncoding) (crun p i) i) /\
  (forall A (a : cact A), careful_act a -> forall c i, taken True (fun e => e <> EEncoding) (crun_act a c i) i).
Proof.
  apply cimpl_cact_ind; intros.
  - cbn in *. apply taken_ask; [tauto|]. intros. now apply H.
  - cbn in *. eapply taken_catching; [now apply crun_textless| |]; intros; [|left; split; [easy|]]; apply taken_here.
  - apply taken_here.
  - now apply H.
  - cbn in *. destruct H1 as [T H1]. destruct (c =? 0); [now apply H0|]. destruct T as [T|[T P]].
    + eapply taken_catching; [now apply crun_textless| |]; intros; [|left; split; [easy|]]; now apply H0.
    + eapply taken_catching; [now apply H| |]; intros; [now apply H0|]. right. unfold some_or. rewrite P. now split.
  - cbn in *. destruct H1 as [T H1]. destruct T as [T|[T P]].
    + eapply taken_catching; [now apply crun_textless| |]; intros; [|left; split; [easy|]]; now apply H0.
    + eapply taken_catching; [now apply H| |]; intros; [now apply H0|]. right. rewrite P. now split.
  - apply taken_variant. intros. apply H. cbn in H0. apply H0.
Qed.

(** ** Panics *)
Definition quietly {A} (x : st -> out A) : Prop := forall i, zlen i mod 4 = 0 -> fst (x i) <> Panic.
Lemma quiet_ending {A} (r : ending A) : unbroken r -> ending_res r <> Panic.
Proof. now destruct r. Qed.
Lemma quiet_ask {A} q (on : visit -> cact A) : (forall v, quietly (crun_act (on v) (count_of v))) -> quietly (fun i => andthen (x_visit q i) (fun v i => crun_act (on v) (count_of v) i)).
Proof.
  intros K i U. destruct (agree_visit q i) as (u & E & M). pose proof (@safe_visit q i U) as S. destruct (x_visit q i) as [[v|e| | |] j]; cbn in *; try easy.
  apply K. subst i. rewrite zlen_app in U. lia.
Qed.
Lemma quiet_variant {A B} (seed : Z -> ending B) (k : B -> cact A) catch c : (forall z, unbroken (seed z)) -> (forall e, unbroken (catch e)) ->
  (forall b, quietly (crun_act (k b) c)) -> quietly (crun_act (CVariant seed k catch) c).
Proof.
  intros S C K i U. cbn [crun_act]. destruct (agree_keep (fun _ => True) local_i32 i32_ordinary i) as (u & E & M). pose proof (@safe_i32 i U) as F.
  destruct (keep read_i32 i) as [[z|e| | |] j]; cbn in *; try easy.
  - destruct (z <? 0); [now apply quiet_ending|]. specialize (S z). destruct (seed z); cbn; [|now apply quiet_ending|easy]. apply K. subst i. rewrite zlen_app in U. lia.
  - now apply quiet_ending.
Qed.
Lemma quiet_catching (err : error -> Prop) {A B} (x : st -> out B) (k : B + error -> st -> out A) :
  quietly x -> (forall i, taken True err (x i) i) -> (forall b, quietly (k (inl b))) ->
  (forall e, (forall j, fst (k (inr e) j) <> Panic) \/ (err e /\ quietly (k (inr e)))) ->
  quietly (fun i => catching (x i) k).
Proof.
  intros Q T K F i U. specialize (Q i U). destruct (T i) as (u & E & M). destruct (x i) as [[b|e| | |] j]; cbn in *; try easy.
  - apply K. subst i. rewrite zlen_app in U. specialize (M Logic.I). lia.
  - destruct (F e) as [G|[G H]]; [apply G|]. apply H. subst i. rewrite zlen_app in U. specialize (M G). lia.
Qed.
Lemma crun_quiet_textless : (forall A (p : cimpl A), textless p -> ccalm p -> quietly (crun p)) /\
  (forall A (a : cact A), textless_act a -> ccalm_act a -> forall c, quietly (crun_act a c)).
Proof.
  apply cimpl_cact_ind; intros.
  - cbn in *. apply quiet_ask. intros. now apply H.
  - cbn in *. destruct H1 as [C1 C2]. eapply quiet_catching; [now apply H|now apply crun_textless| |]; intros; [|left; intros]; [intros i U|]; cbn; now apply quiet_ending.
  - intros i U. cbn. now apply quiet_ending.
  - cbn in *. intros i. now apply H.
  - cbn in *. destruct H1 as [T1 T2], H2 as [C1 C2]. intros i. cbn. destruct (c =? 0); [now apply H0|]. revert i.
    eapply quiet_catching; [now apply H|now apply crun_textless| |]; intros; [|right; split; [easy|]]; now apply H0.
  - cbn in *. destruct H1 as [T1 T2], H2 as [C1 C2].
    eapply quiet_catching; [now apply H|now apply crun_textless| |]; intros; [|right; split; [easy|]]; now apply H0.
  - destruct H1 as (S & K & C). apply quiet_variant; auto.
Qed.
Lemma crun_quiet_careful : (forall A (p : cimpl A), careful p -> ccalm p -> quietly (crun p)) /\
  (forall A (a : cact A), careful_act a -> ccalm_act a -> forall c, quietly (crun_act a c)).
Proof.
  apply cimpl_cact_ind; intros.
  - cbn in *. apply quiet_ask. intros. now apply H.
  - cbn in *. destruct H1 as [C1 C2]. eapply quiet_catching; [now apply crun_quiet_textless|now apply crun_textless| |]; intros; [|left; intros]; [intros i U|]; cbn; now apply quiet_ending.
  - intros i U. cbn. now apply quiet_ending.
  - cbn in *. intros i. now apply H.
  - cbn in *. destruct H1 as [T1 T2], H2 as [C1 C2]. intros i. cbn. destruct (c =? 0); [now apply H0|]. revert i. destruct T1 as [T1|[T1 P]].
    + eapply quiet_catching; [now apply crun_quiet_textless|now apply crun_textless| |]; intros; [|right; split; [easy|]]; now apply H0.
    + eapply quiet_catching; [now apply H|now apply crun_careful| |]; intros; [now apply H0|]. left. intros. unfold some_or. now rewrite P.
  - cbn in *. destruct H1 as [T1 T2], H2 as [C1 C2]. destruct T1 as [T1|[T1 P]].
    + eapply quiet_catching; [now apply crun_quiet_textless|now apply crun_textless| |]; intros; [|right; split; [easy|]]; now apply H0.
    + eapply quiet_catching; [now apply H|now apply crun_careful| |]; intros; [now apply H0|]. left. intros. now rewrite P.
  - destruct H1 as (S & K & C). apply quiet_variant; auto.
Qed.

(** ** An impl that catches nothing *)
Definition same {A} (r : res (A * st)) (o : out A) : Prop :=
  match r with Ok (a, j) => o = (Ok a, j) | Err e => fst o = Err e | Panic => fst o = Panic | _ => True end.
Lemma same_ending {A} (r : result A) i : same ('a <- res_of r;; Ok (a, i)) (ending_res (pass_ending r), i).
Proof. now destruct r. Qed.
Lemma agree_same c {A} (p : parser A) x : agree c p x -> forall i, same (p i) (x i).
Proof. intros H i. destruct (H i) as (u & E & M). destruct (x i) as [[a|e| | |] j]; cbn in *; try tauto; [destruct M as [-> _]|destruct M as [-> _]|rewrite M]; easy. Qed.
Lemma same_bind {A B} (r : res (B * st)) (o : out B) (f : B -> st -> res (A * st)) (k : B + error -> st -> out A) :
  same r o -> (forall b j, same (f b j) (k (inl b) j)) -> (forall e j, k (inr e) j = (Err e, j)) -> same ('(b, j) <- r;; f b j) (catching o k).
Proof.
  intros S F E. destruct r as [[b j]|e| | |]; cbn in *; try easy.
  - subst o. cbn. apply F.
  - destruct o as [o j]. cbn in S. subst o. cbn. now rewrite E.
  - destruct o as [o j]. cbn in S. now subst o.
Qed.
Lemma lift_same : (forall A (p : impl A) i, same (run p i) (crun (lift p) i)) /\
  (forall A (a : act A) c i, same (run_act a c i) (crun_act (lift_act a) c i)).
Proof.
  apply impl_act_ind; intros.
  - cbn in *. pose proof (agree_same (@agree_visit q) i) as S. destruct (visit_of q i) as [[v j]|e| | |]; cbn in *; try easy.
    + rewrite S. cbn. now apply H.
    + destruct (x_visit q i) as [o j]. cbn in S. now subst o.
    + destruct (x_visit q i) as [o j]. cbn in S. now subst o.
  - now apply same_ending.
  - now apply H.
  - cbn in *. destruct (c =? 0); [now apply H0|]. apply same_bind; [now apply H| |easy]. intros. now apply H0.
  - cbn in *. apply same_bind; [now apply H| |easy]. intros. now apply H0.
  - cbn in *. unfold keep. destruct (read_i32 i) as [[z j]|e| | |] eqn:R; cbn; try easy.
    destruct (z <? 0); [easy|]. destruct (seed z); cbn in *; try easy.
Qed.
Lemma lift_passes {A B} (k : B -> cact A) : passes (passing k).
Proof. easy. Qed.
Lemma lift_careful : (forall A (p : impl A), careful (lift p)) /\ (forall A (a : act A), careful_act (lift_act a)).
Proof.
  apply impl_act_ind; intros; cbn; auto.
  - split; [right; split; [exact H|easy]|]. intros [o|e]; cbn; auto.
  - split; [right; split; [exact H|easy]|]. intros [o|e]; cbn; auto.
Qed.

(** ** The theorems *)
Theorem catch_forward : forall A (p : cimpl A) i r j, crun p i = (r, j) -> (exists u, i = u ++ j) /\ r <> Fuel /\ r <> Stuck.
Proof. intros A p i r j H. destruct (proj1 crun_prefix A p i) as (u & E & M). rewrite H in *. cbn in *. split; [eauto|]. now destruct r. Qed.
Theorem catch_in_step : forall A (p : cimpl A) i r j, careful p -> crun p i = (r, j) ->
  exists u, i = u ++ j /\ (forall a, r = Ok a -> zlen u mod 4 = 0) /\ (forall e, r = Err e -> e <> EEncoding -> zlen u mod 4 = 0).
Proof.
  intros A p i r j C H. destruct (proj1 crun_careful A p C i) as (u & E & M). rewrite H in *. cbn in *. exists u. split; [exact E|].
  destruct r; split; intros x X; try discriminate; [auto|]. injection X as ->. exact M.
Qed.
Theorem catch_textless : forall A (p : cimpl A) i r j, textless p -> crun p i = (r, j) -> r <> Panic -> exists u, i = u ++ j /\ zlen u mod 4 = 0.
Proof.
  intros A p i r j C H N. destruct (proj1 crun_textless A p C i) as (u & E & M). rewrite H in *. cbn in *. exists u. split; [exact E|].
  destruct r; tauto.
Qed.
Theorem catch_no_panic : forall A (p : cimpl A) i, careful p -> ccalm p -> zlen i mod 4 = 0 -> from_bytes_catching p i <> Panic.
Proof.
  intros A p i C D U. pose proof (proj1 crun_quiet_careful A p C D i U) as Q. unfold from_bytes_catching. destruct (crun p i) as [[a|e| | |] j]; cbn in *; try easy. now destruct j.
Qed.
Theorem catch_units : forall A (p : cimpl A) i a, careful p -> from_bytes_catching p i = Ok a -> zlen i mod 4 = 0.
Proof.
  intros A p i a C. unfold from_bytes_catching. destruct (crun p i) as [[b|e| | |] j] eqn:R; try easy. destruct j; [|easy]. intros _.
  apply (catch_in_step C) in R as (u & -> & K & _). rewrite app_nil_r. eauto.
Qed.
Theorem catch_instance : forall A (p : impl A) i, run p i <> Fuel -> run p i <> Stuck ->
  from_bytes_catching (lift p) i = from_bytes_with p i /\ careful (lift p).
Proof.
  intros A p i F S. split; [|apply lift_careful]. unfold from_bytes_catching, from_bytes_with. pose proof (proj1 lift_same A p i) as M.
  destruct (run p i) as [[a j]|e| | |]; cbn in *; try easy.
  - rewrite M. now destruct j.
  - destruct (crun (lift p) i) as [o j]. cbn in M. now subst o.
  - destruct (crun (lift p) i) as [o j]. cbn in M. now subst o.
Qed.
