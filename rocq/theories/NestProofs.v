(** Generated types of layered definitions nest to a fixed depth (C96). *)
From Coq Require Import Permutation.
From Verif Require Import Base RustTypes SpecXdr SpecTypes XdrFacts SpecMisc SerModel DeModel SpecDecode DecProofs CodecProofs CodecLemmas
  Nom NomFacts Keyword Ast ParserModel SpecGrammar SpecParse
  ParseSound ParserLemmas ConstProofs CaseModel SpecCase CaseProofs RustAst GenModel SpecGen SpecItems GenFacts GenTotal GenPanic GenLemmas
  SpecXdl GenSem SpecWire WireBase WireEnum WireBack WireEnums SpecEmit EmitBase EmitProofs EmitFlags EmitItems EmitNames EmitRun EmitStop
  SpecWork DepthProofs SpecAppend AllocModel SpecAlloc AllocProofs AllocGen SpecNest.
Set Implicit Arguments. Unset Strict Implicit.
Local Open Scope list_scope.

Lemma assoc_found {A} x (l : list (string * A)) a : assoc String.eqb x l = Some a -> In (x, a) l.
Proof. induction l as [|[y b] l IH]; cbn; [discriminate|]. destruct (String.eqb_spec x y) as [->|]; [intros [= ->]; now left|right; auto]. Qed.

Lemma name_of x y : upper_camel_case_ident x = GOk y -> y = camel x.
Proof. intros H. now apply camel_ident_of in H. Qed.

(** the names in an emitted type, or only those of what it holds in place *)
Fixpoint names (v : bool) (t : rty) : list string :=
  match t with
  | YName x => [x]
  | YArray t _ _ | YOption t => names v t
  | YVec t | YBox t => if v then [] else names v t
  | _ => []
  end.
Definition named_in (v : bool) (d : decl) : option tyspec := if v then embeds d else mentions d.

Section Ranked.
  Variables (pl : bool) (cfg : config) (ds : list definition) (rank : string -> nat).
  Hypothesis HR : forall x td d y, In (x, td) (type_defs ds) -> In d (parts td) -> named_in pl d = Some (TsIdent y) ->
    (pl = true /\ exists n l, td = TdStruct n l /\ y = x) \/ (rank y < rank x)%nat.
  Let cx := ctx cfg ds.

  Definition below (r : nat) (t : rty) : Prop := forall z, In z (names pl t) -> exists y, z = camel y /\ (rank y < r)%nat.
  Definition low (r : nat) (d : decl) : Prop := forall y, named_in pl d = Some (TsIdent y) -> (rank y < r)%nat.

  Lemma primitive_below (rt : string -> gres (rty * opaque_type)) r t q :
    (forall y q, t = TsIdent y -> rt y = GOk q -> below r (fst q)) -> convert_primitive_token rt t = GOk q -> below r (fst q).
  Proof. intros R H. destruct t; cbn in H; try discriminate; try (injection H as <-; intros z []; fail). now apply R in H. Qed.
  Lemma token_below (rt : string -> gres (rty * opaque_type)) r d q :
    (forall y q, named_in pl d = Some (TsIdent y) -> rt y = GOk q -> below r (fst q)) -> convert_type_token rt d = GOk (Some q) -> below r (fst q).
  Proof.
    intros R H. assert (P : forall t q, named_in pl d = Some t -> convert_primitive_token rt t = GOk q -> below r (fst q)).
    { intros t q' M. apply primitive_below. intros y q'' ->. now apply R. }
    destruct d; cbn [convert_type_token] in H; try discriminate.
    - apply gbind_ok in H as (q' & H & [= <-]). apply P in H; [easy|now destruct pl].
    - apply gbind_ok in H as ([ty op] & H & K). apply gbind_ok in K as (l & _ & [= <-]). apply P in H; [easy|now destruct pl].
    - apply gbind_ok in H as ([ty op] & H & K). injection K as <-. destruct op; try (intros z []; fail); cbn [fst]; intros z Hz; cbn [names] in Hz;
        destruct pl eqn:V; try (destruct Hz; fail); apply P in H; try easy; apply H; cbn [fst]; rewrite V; exact Hz.
    - apply gbind_ok in H as (l & _ & [= <-]). intros z [].
    - injection H as <-. intros z Hz. cbn in Hz. now destruct pl.
    - injection H as <-. intros z [].
    - apply gbind_ok in H as ([ty op] & H & K). injection K as <-. apply P in H; [easy|now destruct pl].
  Qed.
  Lemma below_le r r' t : (r <= r')%nat -> below r t -> below r' t.
  Proof. intros L B z Hz. destruct (B z Hz) as (y & -> & K). exists y. split; [easy|lia]. Qed.
  Lemma resolve_below : forall n x q, resolve_type_token cx n x = GOk q -> below (S (rank x)) (fst q).
  Proof.
    induction n as [|n IH]; intros x q H; [discriminate|]. cbn [resolve_type_token] in H.
    assert (K : (name <~ upper_camel_case_ident x;; GOk (YName name, OpNone)) = GOk q -> below (S (rank x)) (fst q)).
    { intros H'. apply gbind_ok in H' as (nm & N & [= <-]). intros z [<-|[]]. exists x. split; [now apply name_of|lia]. }
    destruct (remove_typedef _); [|auto]. destruct (assoc _ _ _) as [[d| | |]|] eqn:A; auto.
    apply gbind_ok in H as ([r|] & H & [= <-]). revert H. apply token_below. intros y q M Q.
    apply below_le with (S (rank y)); [|now apply IH in Q]. apply assoc_found in A.
    assert (rank y < rank x)%nat by (destruct (@HR x (TdDecl d) d y A (or_introl eq_refl) M) as [(_ & ? & ? & [=] & _)|]; easy). lia.
  Qed.
  Lemma decl_below n r d q : low r d -> convert_type_token (resolve_type_token cx n) d = GOk (Some q) -> below r (fst q).
  Proof. intros L. apply token_below. intros y q' M Q. apply below_le with (S (rank y)); [now apply L|now apply resolve_below in Q]. Qed.

  Definition slow (r : nat) (c : tyspec) : Prop := forall y, c = TsIdent y -> (rank y < r)%nat.
  Lemma case_below n r w d c ct : low r d -> slow r c -> convert_case_token cx n w d c = GOk ct ->
    Forall (below r) (va_tys (ct_variant ct)) /\ below r (ct_cond ct).
  Proof.
    intros L SC H. unfold convert_case_token in H. apply gbind_ok in H as (nm & HN & H). apply gbind_ok in H as (ty & HT & H).
    apply gbind_ok in H as (o & HO & H).
    assert (B : below r ty).
    { destruct (convert_primitive_token _ c) as [[t op]| | |] eqn:P; cbn in HT; try discriminate.
      - injection HT as <-. apply (@primitive_below (resolve_type_token cx n) r c (t, op)); [|exact P]. intros y q E Q.
        apply below_le with (S (rank y)); [now apply SC|now apply resolve_below in Q].
      - destruct c; try discriminate. apply gbind_ok in HT as (x' & N & [= <-]). intros z [<-|[]]. eexists. split; [exact (name_of N)|now apply SC]. }
    assert (NV : below r YVarArray) by (intros z []).
    injection H as <-. destruct o as [[t op]|].
    - apply (decl_below L) in HO. cbn in HO.
      destruct (union_impl_union _); cbn [ct_variant va_tys ct_cond]; (split; [|easy]); repeat constructor; try easy;
        match goal with |- below _ (if ?b then _ else _) => now destruct b end.
    - destruct (union_impl_union _); cbn [ct_variant va_tys ct_cond]; (split; [|easy]); repeat constructor; easy.
  Qed.
  Definition parts_below (r : nat) (p : union_parts) : Prop :=
    Forall (fun va => Forall (below r) (va_tys va)) (up_specs p) /\ (forall c, up_cond p = Some c -> below r c).
  Lemma values_below n r c : slow r c -> forall l s acc p, (forall z d w, In (z, d, w) l -> low r d) ->
    union_values cx n c s l acc = GOk p -> parts_below r acc -> parts_below r p.
  Proof.
    intros SC. induction l as [|[[e d] v] l IH]; intros s acc p L H [A1 A2]; cbn [union_values] in H.
    - now injection H as <-.
    - apply gbind_ok in H as (fill & HF & H). apply gbind_ok in H as (ct & HC & H). apply gbind_ok in H as (bv & _ & H).
      apply gbind_ok in H as (s' & _ & H). apply IH in H; [exact H|intros z d' v' I; apply (L z d' v'); now right|].
      apply case_below with (r := r) in HC as [C1 C2]; [|apply (L e d v); now left|exact SC]. split; cbn [up_specs up_cond].
      + apply Forall_app. split; [easy|]. apply Forall_app. split; [|now constructor]. destruct (union_complement_index _); [|injection HF as <-; constructor].
        apply gmap_ok in HF. apply Forall_forall. intros va Hva. destruct (Forall2_in_r HF Hva) as (z & _ & R). apply reserved_small in R. rewrite R. constructor.
      + now intros c' [= <-].
  Qed.
  Lemma bool_below n r c b specs acc p : slow r c -> (forall vs d, In (CaseSpec vs d) specs -> low r d) ->
    bool_case cx n c b specs acc = GOk p -> parts_below r acc -> parts_below r p.
  Proof.
    intros SC L. unfold bool_case. cbv zeta. intros H [A1 A2]. destruct (find _ specs) as [[vs d]|] eqn:F.
    - apply find_some in F as [F _]. destruct (find _ vs) as [v|]; [|discriminate]. apply gbind_ok in H as (ct & HC & H). injection H as <-.
      apply case_below with (r := r) in HC as [C1 C2]; [|now apply L with vs|exact SC].
      split; cbn [up_specs up_cond]; [|easy]. apply Forall_app. split; [easy|now constructor].
    - destruct (union_complement_index _); [|now injection H as <-]. apply gbind_ok in H as (t & HT & H). injection H as <-.
      split; cbn [up_specs up_cond]; [|easy]. apply Forall_app. split; [easy|constructor; [|easy]]. apply reserved_small in HT. rewrite HT. constructor.
  Qed.
  Lemma default_below n r o acc p : (forall d, o = Some d -> low r d) -> union_default cx n o acc = GOk p -> parts_below r acc -> parts_below r p.
  Proof.
    intros L. unfold union_default. destruct o as [d|]; intros H [A1 A2]; [|now injection H as <-].
    apply gbind_ok in H as (t & HT & H). cbv zeta in H. injection H as <-. split; cbn [up_specs up_cond]; [|easy].
    apply Forall_app. split; [easy|]. constructor; [|easy]. cbn [va_tys].
    assert (T : Forall (below r) match t with Some (ty, _) => [ty] | None => [] end).
    { destruct t as [[ty op]|]; [|easy]. apply (decl_below (L d eq_refl)) in HT. now constructor. }
    destruct (union_impl_union _); [|exact T]. apply Forall_app. split; [|exact T]. destruct (up_cond acc); [|easy]. constructor; auto.
  Qed.
  Lemma union_below n r x y u i : (forall d, In d (parts (TdUnion y u)) -> low r d) -> convert_union_token cx n x u = GOk i ->
    Forall (fun va => Forall (below r) (va_tys va)) (un_variants i) /\ forall ui d, un_union i = Some ui -> ui_disc ui = Some d -> below r d.
  Proof.
    intros L C. destruct u as [c specs dflt]. unfold convert_union_token in C. apply gbind_ok in C as (nm & _ & C).
    apply gbind_ok in C as (t & HC & C). apply gbind_ok in C as (p & HP & C). apply gbind_ok in C as (q & HQ & C). cbv zeta in C.
    destruct (up_default q) as [dv|]; [|discriminate]. injection C as <-. cbn [un_union un_variants].
    assert (N0 : parts_below r no_parts) by (split; [constructor|easy]).
    assert (SC : slow r t).
    { destruct c as [t0 w| | | | | | |]; try discriminate. injection HC as ->. intros z ->. apply (L (DVariable (TsIdent z) w)); [now left|now destruct pl]. }
    assert (LS : forall vs d, In (CaseSpec vs d) specs -> low r d).
    { intros vs d I. apply L. right. apply in_or_app. left. apply in_map_iff. now exists (CaseSpec vs d). }
    assert (LD : forall d, dflt = Some d -> low r d).
    { intros d ->. apply L. right. apply in_or_app. right. now left. }
    assert (VL : forall vals, gmap (fun s => match s with CaseSpec vs d => gmap (fun v => z <~ resolve_value cx n KU32 v;; GOk (z, d, v)) vs end) specs = GOk vals ->
      forall z d v, In (z, d, v) (sort_by (fun p => fst (fst p)) (concat vals)) -> low r d).
    { intros vals G z d v I. apply (Permutation_in _ (sort_by_perm _ _)) in I. apply in_concat in I as (l & Il & I). apply gmap_ok in G.
      destruct (Forall2_in_r G Il) as ([vs d'] & Is & G'). apply gmap_ok in G'. destruct (Forall2_in_r G' I) as (v' & _ & G'').
      apply gbind_ok in G'' as (z' & _ & [= <- <- <-]). now apply LS with vs. }
    assert (NP : parts_below r p).
    { destruct t; try discriminate HP.
      - apply gbind_ok in HP as (vals & HV & HP). apply (values_below SC (VL _ HV) HP N0).
      - apply gbind_ok in HP as (p0 & H0 & HP). apply gbind_ok in HP as (p1 & H1 & HP). injection HP as <-.
        apply (bool_below SC LS) in H0; [|easy]. apply (bool_below SC LS) in H1 as [B1 B2]; [|easy]. split; [easy|]. intros c' [= <-] z [].
      - apply gbind_ok in HP as (vals & HV & HP). apply (values_below SC (VL _ HV) HP N0). }
    destruct (default_below LD HQ NP) as [Q1 Q2]. split; [exact Q1|].
    intros ui d E. destruct (union_impl_union _); [|discriminate]. injection E as <-. apply Q2.
  Qed.

  Lemma item_below n f i : gen_code n cfg ds = GOk f -> In i (fi_types f) -> exists x, item_name i = camel x /\
    (forall t, In t (item_tys i) -> below (rank x) t) /\
    forall ui un d, i = IUnion ui -> un_union ui = Some un -> ui_disc un = Some d -> below (rank x) d.
  Proof.
    intros G Hi. destruct (item_back G Hi) as ([x td] & its & Hd & T & HI). exists x.
    assert (L' : (forall n l, td <> TdStruct n l) -> forall d, In d (parts td) -> low (rank x) d).
    { intros NS d Id y M. destruct (@HR x td d y Hd Id M) as [(_ & ? & ? & -> & _)|]; [now edestruct NS|easy]. }
    destruct td as [d|y l|y l|y u]; cbn [type_token_of] in T.
    - assert (L := L' ltac:(easy)). destruct (remove_typedef _); [injection T as <-; easy|]. apply gbind_ok in T as (o & HO & T). apply gbind_ok in T as ([ty op] & Hr & T).
      destruct o as [r|]; [|discriminate]. injection Hr as ->.
      destruct op; [|discriminate..]. apply gbind_ok in T as (z & N & [= <-]). destruct HI as [<-|[]]. split; [now apply name_of|]. split; [|easy].
      intros t [<-|[]]. apply (decl_below (L d (or_introl eq_refl))) in HO. exact HO.
    - apply gbind_ok in T as (e & T & [= <-]). destruct HI as [<-|[]]. split; [|easy].
      unfold convert_enum_token in T. apply gbind_ok in T as (ix & _ & T). cbv zeta in T.
      apply gbind_ok in T as (nm & N & T). apply gbind_ok in T as (vs & _ & T). apply gbind_ok in T as (items & _ & T).
      destruct items as [|[d z] rest]; [discriminate|]. injection T as <-. now apply name_of.
    - apply gbind_ok in T as (s & T & [= <-]). destruct HI as [<-|[]]. unfold convert_struct_token in T.
      apply gbind_ok in T as (fs & HF & T). apply gbind_ok in T as (nm & HN & T). injection T as <-. split; [now apply name_of|]. split; [|easy].
      intros t Ht. cbn [item_tys] in Ht. apply in_map_iff in Ht as (fd & <- & Hfd).
      cbn [st_fields] in Hfd. apply gmap_ok in HF. destruct (Forall2_in_r HF Hfd) as (d & Hdl & h).
      unfold struct_field in h. destruct (decl_name d); [|discriminate]. apply gbind_ok in h as (o & HO & h).
      apply gbind_ok in h as ([ty op] & Hr & h). cbv zeta in h. apply gbind_ok in h as (idn & _ & h). injection h as <-. cbn [fd_ty].
      destruct o as [r|]; [|discriminate]. injection Hr as ->.
      destruct (tyspec_is x (decl_type d)) eqn:TI.
      + assert (V : pl = true \/ below (rank x) ty).
        { destruct (Bool.bool_dec pl true) as [V|V]; [now left|right]. revert HO. apply (@decl_below n (rank x) d (ty, op)). intros z M.
          destruct (@HR x (TdStruct y l) d z Hd Hdl M) as [(? & _)|]; [congruence|easy]. }
        destruct V as [V|B]; [intros z Hz; cbn [names] in Hz; rewrite V in Hz; destruct Hz|]. intros z Hz. apply B. cbn [names] in Hz. now destruct pl.
      + revert HO. apply (@decl_below n (rank x) d (ty, op)). intros z M. destruct (@HR x (TdStruct y l) d z Hd Hdl M) as [(V & _ & _ & _ & ->)|]; [|easy].
        rewrite V in M. assert (decl_type d = Some (TsIdent x)) as Q by (destruct d; cbn in M |- *; congruence). rewrite Q in TI. cbn in TI. now rewrite String.eqb_refl in TI.
    - apply gbind_ok in T as (u' & T & [= <-]). destruct HI as [<-|[]]. destruct (union_below (L' ltac:(easy)) T) as [B1 B2]. split; [|split].
      + destruct u as [c specs dflt]. unfold convert_union_token in T. apply gbind_ok in T as (nm & N & C).
        apply gbind_ok in C as (t & HC & C). apply gbind_ok in C as (p & HP & C). apply gbind_ok in C as (q & HQ & C). cbv zeta in C.
        destruct (up_default q) as [dv|]; [|discriminate]. injection C as <-. now apply name_of.
      + intros t Ht. cbn [item_tys] in Ht. apply in_flat_map in Ht as (va & Hva & Ht). rewrite Forall_forall in B1. specialize (B1 _ Hva).
        rewrite Forall_forall in B1. auto.
      + intros ui un d [= <-]. apply B2.
  Qed.
End Ranked.

(** ** Eventually shallow *)
Section Shallow.
  Variable E : env.
  Definition sev (t : ty) : Prop := exists d0, forall d, (d0 <= d)%nat -> shallow d E t = true.
  Lemma sev_inner t : (forall u, In u (inner E t) -> sev u) -> sev t.
  Proof. intros H. destruct (@ev_all _ (fun d => shallow d E) (inner E t) H) as [d0 K]. exists (S d0). intros [|d] L; [lia|]. cbn [shallow]. apply K. lia. Qed.
  Lemma sev_leaf t : inner E t = [] -> sev t.
  Proof. intros H. apply sev_inner. now rewrite H. Qed.
  Lemma sev_step t u : inner E t = [u] -> sev u -> sev t.
  Proof. intros H U. apply sev_inner. rewrite H. now intros v [<-|[]]. Qed.
  Lemma sev_var : sev TVariableArray.
  Proof. repeat first [apply sev_leaf; reflexivity|eapply sev_step; [reflexivity|]]. Qed.
  Lemma ty_sev f t : forall T, ty_sem f t = Some T -> (forall z U, In z (names false t) -> lookup E z = Some U -> sev U) -> sev T.
  Proof.
    induction t; cbn [ty_sem]; intros T H N; try (injection H as <-; apply sev_leaf; reflexivity).
    - destruct (find_item f x); [|discriminate]. injection H as <-. apply sev_inner. cbn [inner]. destruct (lookup E x) as [U|] eqn:L; [|easy].
      intros u [<-|[]]. apply N with x; [now left|easy].
    - apply obind_some in H as (T1 & H1 & H). apply obind_some in H as (n & _ & H). injection H as <-. eapply sev_step; [reflexivity|auto].
    - destruct (ty_sem f t) as [T1|]; [|discriminate]. injection H as <-. eapply sev_step; [reflexivity|auto].
    - injection H as <-. eapply sev_step; [reflexivity|apply sev_var].
    - destruct (ty_sem f t) as [T1|]; [|discriminate]. injection H as <-. eapply sev_step; [reflexivity|auto].
    - destruct (ty_sem f t) as [T1|]; [|discriminate]. injection H as <-. eapply sev_step; [reflexivity|auto].
    - injection H as <-. apply sev_var.
  Qed.
  Lemma field_sev f a t T : field_sem f a t = Some T -> (forall z U, In z (names false t) -> lookup E z = Some U -> sev U) -> sev T.
  Proof.
    destruct a; cbn [field_sem].
    - apply ty_sev.
    - destruct t as [| | | | | |[[|] []| | | | | | | | | | |] len cast| | | | |]; try discriminate. destruct (array_len f len cast); [|discriminate]. intros [= <-] _. apply sev_leaf. reflexivity.
    - destruct t as [| | | | | | |[[|] []| | | | | | | | | | |]| | | |]; try discriminate. intros [= <-] _. apply sev_leaf. reflexivity.
    - destruct t; try discriminate. intros H _. apply obind_some in H as (e & _ & H). unfold signed_sem in H.
      destruct (en_as_ref e), (en_try_from e); try discriminate. apply obind_some in H as (zs & _ & H). apply obind_some in H as (arms & _ & H).
      apply guard_some in H as [_ H]. injection H as <-. apply sev_leaf. reflexivity.
  Qed.
End Shallow.

Lemma env_sev cfg ds n f E : gen_code n cfg ds = GOk f -> file_env f = Some E -> layered ds -> forall x T, lookup E x = Some T -> sev E T.
Proof.
  intros G FE (rank & HC & HR').
  assert (HR : forall x td d y, In (x, td) (type_defs ds) -> In d (parts td) -> named_in false d = Some (TsIdent y) ->
    (false = true /\ exists n l, td = TdStruct n l /\ y = x) \/ (rank y < rank x)%nat) by (intros x td d y I P M; right; exact (HR' x td d y I P M)).
  assert (K : forall k y T, (rank y < k)%nat -> lookup E (camel y) = Some T -> sev E T).
  { induction k as [|k IH]; [lia|]. intros y T L LK. destruct (env_item FE LK) as (i & Hi & NM & S).
    destruct (item_below HR G Hi) as (x & NX & B & D). assert (ER : rank x = rank y).
    { apply HC with (item_name i); [rewrite NX|rewrite NM]; apply camel_of_camel. }
    assert (N : forall t, below false rank (rank x) t -> forall z U, In z (names false t) -> lookup E z = Some U -> sev E U).
    { intros t Bt z U Hz LU. destruct (Bt z Hz) as (w & -> & Lw). apply (IH w); [lia|easy]. }
    destruct (item_inner S) as [(z & t & -> & H)|(_ & _ & NR & HI)].
    - apply (ty_sev H). apply N. apply B. now left.
    - apply sev_inner. intros u Iu. assert (Iu' : In u (inner [] T)) by (destruct T; try exact Iu; now destruct (NR name)).
      destruct (HI u Iu') as [(a & t & Ht & F)|(ui & un & d & -> & EU & ED & F)].
      + apply (field_sev F). apply N. now apply B.
      + apply (ty_sev F). apply N. now apply (D ui un d). }
  intros x T L. destruct (env_item FE L) as (i & Hi & NM & _). destruct (item_below HR G Hi) as (y & NX & _ & _).
  apply (K (S (rank y)) y); [lia|]. now rewrite <- NX, NM.
Qed.

Theorem generated_shallow cfg ds f E x : generated cfg ds f E -> layered ds ->
  exists d, forall i, from_bytes d E (TRef x) i <> Fuel /\ forall n, (d <= n)%nat -> from_bytes n E (TRef x) i = from_bytes d E (TRef x) i.
Proof.
  intros [G FE] L. apply greturns_run in G as (k & G & _). assert (S : sev E (TRef x)).
  { apply sev_inner. cbn [inner]. destruct (lookup E x) as [U|] eqn:LU; [|easy]. intros u [<-|[]]. now apply (env_sev G FE L) in LU. }
  destruct S as [d K]. exists d. apply c96_shallow. now apply K.
Qed.

(** ** Finite size *)
Lemma names_inline t : names true t = inline t.
Proof. induction t; cbn; congruence. Qed.
Theorem flat_finite cfg ds f : greturns (fun n => gen_code n cfg ds) (GOk f) -> flat ds -> finite_size f.
Proof.
  intros G (rank & H). apply greturns_run in G as (n & G & _). exists rank. intros i y Hi Hy.
  assert (HR : forall x td d y, In (x, td) (type_defs ds) -> In d (parts td) -> named_in true d = Some (TsIdent y) ->
    (true = true /\ exists n l, td = TdStruct n l /\ y = x) \/ (rank (camel y) < rank (camel x))%nat).
  { intros x td d z I P M. destruct (H x td d z (camel x) (camel z) I P M (camel_of_camel x) (camel_of_camel z)); auto. }
  destruct (@item_below true cfg ds (fun x => rank (camel x)) HR n f i G Hi) as (x & -> & B & _).
  assert (K : exists t, In t (item_tys i) /\ In y (inline t)).
  { destruct i as [z t|e|s|u]; cbn [item_inline] in Hy; cbn [item_tys].
    - exists t. split; [now left|easy].
    - destruct Hy.
    - apply in_flat_map in Hy as (fd & Hf & Hy). exists (fd_ty fd). split; [now apply in_map|easy].
    - apply in_flat_map in Hy as (va & Hv & Hy). apply in_flat_map in Hy as (t & Ht & Hy). exists t. split; [apply in_flat_map; eauto|easy]. }
  destruct K as (t & Ht & Hz). destruct (B t Ht y) as (w & -> & L); [now rewrite names_inline|exact L].
Qed.

(** what is held in place is written in the emitted type *)
Section Circles.
  Variables (cfg : config) (ds : list definition).
  Hypothesis RT : remove_typedef cfg = true.
  Let cx := ctx cfg ds.
  Lemma value_inline d y : by_value ds d y -> forall n q, convert_type_token (resolve_type_token cx n) d = GOk (Some q) -> In (camel y) (inline (fst q)) /\ snd q = OpNone.
  Proof.
    assert (P : forall d t, embeds d = Some t -> forall (rt : string -> gres (rty * opaque_type)) q, convert_type_token rt d = GOk (Some q) ->
      exists q', convert_primitive_token rt t = GOk q' /\ inline (fst q) = inline (fst q') /\ snd q = snd q').
    { intros d' t E rt q H. destruct d'; cbn in E; try discriminate; injection E as ->; cbn [convert_type_token] in H.
      - apply gbind_ok in H as (q' & H & [= <-]). eauto.
      - apply gbind_ok in H as ([ty op] & H & K). apply gbind_ok in K as (l & _ & [= <-]). eexists. split; [exact H|easy].
      - apply gbind_ok in H as ([ty op] & H & K). injection K as <-. eexists. split; [exact H|easy]. }
    induction 1 as [d x E N|d x d' y E F _ IH]; intros n q H; destruct (P _ _ E _ _ H) as (q' & C & -> & ->); cbn [convert_primitive_token] in C; clear P;
      (destruct n as [|n]; [discriminate|]); cbn [resolve_type_token] in C; change (cx_config cx) with cfg in C; rewrite RT in C; change (typedefs cx) with (type_defs ds) in C.
    - assert (K : (name <~ upper_camel_case_ident x;; GOk (YName name, OpNone)) = GOk q').
      { destruct (assoc _ _ _) as [[d'| | |]|] eqn:A; try exact C. apply assoc_first in A. now apply N in A. }
      apply gbind_ok in K as (nm & HN & [= <-]). apply name_of in HN as ->. split; [now left|easy].
    - apply assoc_first in F. rewrite F in C. apply gbind_ok in C as ([r|] & H' & [= <-]). now apply IH in H'.
  Qed.
  Lemma case_inline n w d c ct y : by_value ds d y -> convert_case_token cx n w d c = GOk ct -> exists t, In t (va_tys (ct_variant ct)) /\ In (camel y) (inline t).
  Proof.
    intros B H. unfold convert_case_token in H. apply gbind_ok in H as (nm & HN & H). apply gbind_ok in H as (ty & HT & H).
    apply gbind_ok in H as (o & HO & H). injection H as <-. destruct o as [[t op]|].
    - apply (value_inline B) in HO as [I O]. cbn in I, O. subst op. exists t. split; [|easy]. destruct (union_impl_union _); cbn; auto.
    - exfalso. inversion B as [? x E|? x ? ? E]; subst; destruct d; cbn in E; try discriminate; cbn [convert_type_token] in HO;
        try (apply gbind_ok in HO as ([ty' op'] & _ & HO); try (apply gbind_ok in HO as (? & _ & HO)); discriminate).
  Qed.
  Lemma bool_kept n c b specs acc p va : bool_case cx n c b specs acc = GOk p -> In va (up_specs acc) -> In va (up_specs p).
  Proof.
    unfold bool_case. cbv zeta. intros H I. destruct (find _ specs) as [[vs d]|].
    - destruct (find _ vs) as [v|]; [|discriminate]. apply gbind_ok in H as (ct & HC & H). injection H as <-. apply in_or_app. now left.
    - destruct (union_complement_index _); [|now injection H as <-]. apply gbind_ok in H as (t & HT & H). injection H as <-. apply in_or_app. now left.
  Qed.
  Lemma bool_inline n c (b : bool) pre post vs d acc p y : In (VIdent (if b then "TRUE" else "FALSE")%string) vs ->
    (forall vs' d', In (CaseSpec vs' d') pre -> ~ In (VIdent (if b then "TRUE" else "FALSE")%string) vs') -> by_value ds d y ->
    bool_case cx n c b (pre ++ CaseSpec vs d :: post) acc = GOk p -> exists va t, In va (up_specs p) /\ In t (va_tys va) /\ In (camel y) (inline t).
  Proof.
    unfold bool_case. cbv zeta. set (test := if b then is_true else is_false). set (s := (if b then "TRUE" else "FALSE")%string).
    assert (TE : forall v, test v = true <-> v = VIdent s).
    { intros v. subst test s. destruct b, v; cbn; split; try discriminate; try (intros H; apply String.eqb_eq in H; congruence); intros [= ->]; reflexivity. }
    intros IV NA B H. assert (EX : existsb test vs = true) by (apply existsb_exists; exists (VIdent s); split; [easy|now apply TE]).
    assert (F : find (fun s => match s with CaseSpec vs _ => existsb test vs end) (pre ++ CaseSpec vs d :: post) = Some (CaseSpec vs d)).
    { clear H. induction pre as [|[vs' d'] pre IH]; cbn [app find]; [now rewrite EX|]. destruct (existsb test vs') eqn:E'.
      - apply existsb_exists in E' as (v & Hv & Ht). apply TE in Ht as ->. destruct (NA vs' d'); [now left|easy].
      - apply IH. intros vs'' d'' I. apply NA with d''. now right. }
    rewrite F in H. destruct (find test vs) as [v|]; [|discriminate]. apply gbind_ok in H as (ct & HC & H). injection H as <-.
    destruct (case_inline B HC) as (ty & Ht & Hy). exists (ct_variant ct), ty. split; [apply in_or_app; right; now left|easy].
  Qed.
  Lemma contains_inline n f x y : gen_code n cfg ds = GOk f -> contains ds x y -> exists i, In i (fi_types f) /\ item_name i = camel x /\ In (camel y) (item_inline i).
  Proof.
    intros G [(z & l & d & I & D & NX & B)|[(z & c & specs & d & I & B)|[(z & t & w & specs & dflt & d & v & vs & I & NB & S & B)|(z & w & a & b & dflt & s & vs & d & I & IS & IV & NA & B)]]];
      destruct (item_from G I) as (its & T & HI); cbn [type_token_of] in T.
    - apply gbind_ok in T as (s & T & [= <-]). exists (IStruct s). split; [apply HI; now left|]. unfold convert_struct_token in T.
      apply gbind_ok in T as (fs & HF & T). apply gbind_ok in T as (nm & HN & T). injection T as <-. split; [now apply name_of|].
      cbn [item_inline st_fields]. apply gmap_ok in HF. destruct (Forall2_in_l HF D) as (fd & Hf & h). apply in_flat_map. exists fd. split; [easy|].
      unfold struct_field in h. destruct (decl_name d); [|discriminate]. apply gbind_ok in h as (o & HO & h).
      apply gbind_ok in h as ([ty op] & Hr & h). cbv zeta in h. apply gbind_ok in h as (idn & _ & h). injection h as <-. cbn [fd_ty].
      destruct o as [r|]; [|discriminate]. injection Hr as ->. assert (tyspec_is x (decl_type d) = false) as ->.
      { destruct (tyspec_is x (decl_type d)) eqn:TI; [|easy]. exfalso. assert (K : exists t, embeds d = Some t) by (inversion B; eauto).
        destruct K as [t K]. assert (D' : decl_type d = Some t) by (destruct d; cbn in K |- *; congruence). rewrite D' in TI. destruct t; try discriminate.
        cbn in TI. apply String.eqb_eq in TI as <-. easy. }
      now apply (value_inline B) in HO as [HO _].
    - apply gbind_ok in T as (u & T & [= <-]). exists (IUnion u). split; [apply HI; now left|]. unfold convert_union_token in T. apply gbind_ok in T as (nm & N & C).
      apply gbind_ok in C as (t & HC & C). apply gbind_ok in C as (p & HP & C). apply gbind_ok in C as (q & HQ & C). cbv zeta in C.
      destruct (up_default q) as [dv|]; [|discriminate]. injection C as <-. split; [now apply name_of|]. cbn [item_inline un_variants].
      unfold union_default in HQ. apply gbind_ok in HQ as (o & HO & HQ). cbv zeta in HQ. injection HQ as <-. cbn [up_specs].
      apply in_flat_map. eexists. split; [apply in_or_app; right; now left|]. cbn [va_tys]. apply in_flat_map.
      destruct o as [[ty op]|].
      + apply (value_inline B) in HO as [HO _]. exists ty. split; [|exact HO]. destruct (union_impl_union _); [apply in_or_app; right|]; now left.
      + exfalso. inversion B as [? x' E|? x' ? ? E]; subst; destruct d; cbn in E; try discriminate; cbn [convert_type_token] in HO;
          try (apply gbind_ok in HO as ([ty' op'] & _ & HO); try (apply gbind_ok in HO as (? & _ & HO)); discriminate).
    - apply gbind_ok in T as (u & T & [= <-]). exists (IUnion u). split; [apply HI; now left|]. unfold convert_union_token in T. apply gbind_ok in T as (nm & N & C).
      apply gbind_ok in C as (t' & HC & C). injection HC as <-. apply gbind_ok in C as (p & HP & C). apply gbind_ok in C as (q & HQ & C). cbv zeta in C.
      destruct (up_default q) as [dv|]; [|discriminate]. injection C as <-. split; [now apply name_of|]. cbn [item_inline un_variants].
      assert (VALS : (values <~ gmap (fun s => match s with CaseSpec vs d =>
                                  gmap (fun v => z <~ resolve_value (ctx cfg ds) n KU32 v;; GOk (z, d, v)) vs end) specs;;
                union_values (ctx cfg ds) n t 0 (sort_by (fun p => fst (fst p)) (concat values)) no_parts) = GOk p)
        by (destruct t; try discriminate HP; try easy; exact HP).
      apply gbind_ok in VALS as (vals & HV & K). apply gmap_ok in HV. apply values_kept in K as [_ K].
      destruct (Forall2_in_l HV S) as (l & Hl & E'). apply gmap_ok in E'.
      destruct (Forall2_in_l E' (or_introl eq_refl)) as ([[e d'] v'] & Hi & E''). apply gbind_ok in E'' as (e' & Hz & E''). injection E'' as <- <- <-.
      destruct (K e' d v) as (ct & HC & HI').
      { apply (Permutation_in _ (Permutation_sym (sort_by_perm _ _))). apply in_concat. eauto. }
      destruct (case_inline B HC) as (ty & Ht & Hy). apply in_flat_map. exists (ct_variant ct). split; [|apply in_flat_map; eauto].
      unfold union_default in HQ. destruct dflt as [dd|].
      + apply gbind_ok in HQ as (o & _ & HQ). cbv zeta in HQ. injection HQ as <-. cbn [up_specs]. apply in_or_app. now left.
      + injection HQ as <-. exact HI'.
    - apply gbind_ok in T as (u & T & [= <-]). exists (IUnion u). split; [apply HI; now left|]. unfold convert_union_token in T. apply gbind_ok in T as (nm & N & C).
      apply gbind_ok in C as (t' & HC & C). injection HC as <-. apply gbind_ok in C as (p & HP & C). apply gbind_ok in C as (q & HQ & C). cbv zeta in C.
      destruct (up_default q) as [dv|]; [|discriminate]. injection C as <-. split; [now apply name_of|]. cbn [item_inline un_variants].
      apply gbind_ok in HP as (p0 & H0 & HP). apply gbind_ok in HP as (p1 & H1 & HP). injection HP as <-.
      assert (K : exists t, In (camel y) (inline t) /\ exists va, In va (up_specs p1) /\ In t (va_tys va)).
      { destruct IS as [<-|[<-|[]]].
        - destruct (bool_inline (b := false) IV NA B H0) as (va & t & Hva & Ht & Hy). exists t. split; [easy|]. exists va. split; [now apply (bool_kept H1)|easy].
        - destruct (bool_inline (b := true) IV NA B H1) as (va & t & Hva & Ht & Hy). eauto. }
      destruct K as (t & Hy & va & Hva & Ht). apply in_flat_map. exists va. split; [|apply in_flat_map; eauto].
      unfold union_default in HQ. destruct dflt as [dd|].
      + apply gbind_ok in HQ as (o & _ & HQ). cbv zeta in HQ. injection HQ as <-. cbn [up_specs]. apply in_or_app. now left.
      + now injection HQ as <-.
  Qed.
End Circles.

Theorem circle_infinite cfg ds f x : remove_typedef cfg = true -> greturns (fun n => gen_code n cfg ds) (GOk f) -> contains_chain ds x x -> ~ finite_size f.
Proof.
  intros RT G C [rank H]. apply greturns_run in G as (n & G & _).
  assert (ST : forall a b, contains ds a b -> (rank (camel b) < rank (camel a))%nat).
  { intros a b K. destruct (contains_inline RT G K) as (i & Hi & <- & Hb). now apply H. }
  assert (K : forall a b, contains_chain ds a b -> (rank (camel b) < rank (camel a))%nat).
  { induction 1 as [a b K|a b c K _ IH]; apply ST in K; lia. }
  apply K in C. lia.
Qed.
