(** Printing definition lists. *)
From Verif Require Import Base Nom NomFacts Keyword Ast ParserModel SpecGrammar SpecParse ParseSound ParserLemmas SpecPrint.
Set Implicit Arguments.
Unset Strict Implicit.
Local Open Scope list_scope.

(** ** Induction over syntax trees *)
Definition on_opt {A} (P : A -> Prop) (o : option A) : Prop := match o with Some a => P a | None => True end.
Section AstInd.
  Variables (P : tyspec -> Prop) (Q : decl -> Prop) (R : ubody -> Prop) (S : cspec -> Prop).
  Hypothesis Hleaf : forall t, match t with TsStruct _ | TsUnion _ => True | _ => P t end.
  Hypothesis Hstruct : forall l, Forall Q l -> P (TsStruct l).
  Hypothesis Hunion : forall u, R u -> P (TsUnion u).
  Hypothesis Hvar : forall t x, P t -> Q (DVariable t x).
  Hypothesis Hfix : forall t x v, P t -> Q (DFixedArray t x v).
  Hypothesis Harr : forall t x v, P t -> Q (DVariableArray t x v).
  Hypothesis Hopt : forall t x, P t -> Q (DOption t x).
  Hypothesis Hother : forall d, match d with DOpaqueFixed _ _ | DOpaqueVariable _ _ | DString _ _ | DVoid => Q d | _ => True end.
  Hypothesis Hbody : forall c specs dflt, Q c -> Forall S specs -> on_opt Q dflt -> R (UBody c specs dflt).
  Hypothesis Hcase : forall vs d, Q d -> S (CaseSpec vs d).

  Fixpoint type_ind (t : tyspec) : P t :=
    match t as t return P t with
    | TsStruct l => Hstruct ((fix go l : Forall Q l := match l with [] => Forall_nil _ | d :: l => Forall_cons _ (decl_ind d) (go l) end) l)
    | TsUnion u => Hunion (union_ind u)
    | TsInt s => Hleaf (TsInt s) | TsHyper s => Hleaf (TsHyper s) | TsFloat => Hleaf TsFloat | TsDouble => Hleaf TsDouble
    | TsQuadruple => Hleaf TsQuadruple | TsBool => Hleaf TsBool | TsEnum l => Hleaf (TsEnum l) | TsIdent x => Hleaf (TsIdent x)
    | TsChar s => Hleaf (TsChar s) | TsShort s => Hleaf (TsShort s) | TsVoid => Hleaf TsVoid
    end
  with decl_ind (d : decl) : Q d :=
    match d as d return Q d with
    | DVariable t x => Hvar x (type_ind t)
    | DFixedArray t x v => Hfix x v (type_ind t)
    | DVariableArray t x v => Harr x v (type_ind t)
    | DOption t x => Hopt x (type_ind t)
    | DOpaqueFixed x v => Hother (DOpaqueFixed x v) | DOpaqueVariable x v => Hother (DOpaqueVariable x v)
    | DString x v => Hother (DString x v) | DVoid => Hother DVoid
    end
  with union_ind (u : ubody) : R u :=
    match u as u return R u with
    | UBody c specs dflt =>
        @Hbody c specs dflt (decl_ind c)
          ((fix go l : Forall S l := match l with [] => Forall_nil _ | s :: l => Forall_cons _ (case_ind s) (go l) end) specs)
          (match dflt as o return on_opt Q o with Some d => decl_ind d | None => I end)
    end
  with case_ind (s : cspec) : S s :=
    match s as s return S s with CaseSpec vs d => Hcase vs (decl_ind d) end.
End AstInd.

(** ** Which piece can follow which *)
Definition stop (s : string) : Prop := match chars s with c :: _ => name_char c = false /\ is_space c = false | [] => False end.
Definition link (p : piece) (l : list piece) : Prop :=
  match p with
  | Name _ => match l with [] | Sp0 :: _ | Sp1 :: _ | Bl :: _ => True | Lit s :: _ => stop s | _ => False end
  | TypeName x => match l with
      | Sp1 :: _ => ~ In x soft_words
      | Sp0 :: Lit s :: _ => stop s
      | _ => False
      end
  | Word _ | Unsigned => match l with Sp0 :: _ | Sp1 :: _ => True | _ => False end
  | _ => True
  end.
Fixpoint linked (l : list piece) : Prop := match l with [] => True | p :: l => link p l /\ linked l end.

Lemma soft_in x : soft x = true <-> In x soft_words.
Proof.
  unfold soft. rewrite existsb_exists. split.
  - intros (y & H & E). apply String.eqb_eq in E. now subst.
  - intros H. exists x. split; [easy|]. apply String.eqb_refl.
Qed.

Lemma piece_standard p l tight : link p l -> (forall x, p <> TypeName x) ->
  piece_text p (chars (standard tight p)) (render false l).
Proof.
  intros L N. destruct p; cbn [piece_text standard].
  - easy.
  - split; [easy|]. destruct l as [|[] l]; cbn in L |- *; try easy.
    unfold stop in L. destruct (chars s) as [|c u] eqn:E; [easy|]. cbn. intros H. destruct L. congruence.
  - now destruct (N x).
  - split; [easy|]. destruct l as [|[] l]; cbn in L |- *; easy.
  - split; [destruct l as [|[] l]; cbn in L |- *; easy|]. left. exists (chars " "). repeat split; [easy|]. repeat constructor.
  - destruct tight; repeat constructor.
  - split; [repeat constructor|easy].
  - cbn. apply bl_space; [easy|constructor].
  - exists []. split; [constructor|]. left. reflexivity.
Qed.
Lemma render_written l tight : linked l -> written l (render tight l) [].
Proof.
  revert tight. induction l as [|p l IH]; intros tight; [constructor|]. cbn [linked render]. intros [L H].
  constructor; [|now apply IH]. destruct p as [s|x|x|s| | | | |]; try (apply piece_standard; [exact L|congruence]).
  cbn [piece_text standard]. split; [easy|]. destruct l as [|[] l]; cbn in L; try easy.
  - destruct l as [|[] l]; try easy. unfold stop in L. cbn [render standard]. destruct (soft x) eqn:E.
    + change (chars "") with (@nil ascii). destruct (chars s) as [|c u]; [easy|]. destruct L as [L1 L2]. cbn [app starts].
      rewrite L1, L2. now split.
    + split; [easy|]. intros I. apply soft_in in I. congruence.
Qed.

(** ** Standard texts are texts of the language *)
Lemma linked_free p l : linked l -> match p with Name _ | TypeName _ | Word _ | Unsigned => False | _ => True end -> linked (p :: l).
Proof. intros H N. split; [|easy]. now destruct p. Qed.
Lemma linked_lits vs l : linked l -> linked (flat_map w_label vs ++ l).
Proof. intros H. induction vs as [|v vs IH]; cbn; auto 20. Qed.
Lemma linked_assigns a l m : linked (Bl :: m) -> linked (w_assigns (a :: l) ++ Bl :: m).
Proof.
  intros H. revert a. induction l as [|b l IH]; intros a.
  - cbn in *. tauto.
  - specialize (IH b). cbn [w_assigns w_assign w_value app] in *. rewrite <- ?app_assoc. cbn in *. tauto.
Qed.
Lemma linked_enum l m : linked m -> linked (w_enum_body l ++ m).
Proof.
  intros H. destruct l as [|a l]; [cbn; tauto|]. unfold w_enum_body. rewrite <- !app_assoc. cbn [app].
  split; [easy|]. split; [easy|]. apply linked_assigns. cbn. tauto.
Qed.

Lemma linked_number v l : linked l -> linked (w_number v ++ l).
Proof. intros H. cbn. tauto. Qed.
Definition after_type (t : tyspec) (l : list piece) : Prop :=
  match l with
  | Sp1 :: _ => hard t
  | Sp0 :: Lit s :: _ => stop s
  | _ => False
  end.
Lemma after_word t l p : after_type t l -> match p with Word _ | Unsigned => True | _ => False end -> link p l.
Proof. intros A N. destruct p; try easy; cbn; (destruct l as [|[] l]; easy). Qed.
Lemma flat_linked {A} (S : A -> Prop) (f : A -> list piece) l m :
  Forall (fun a => S a -> forall m, linked m -> linked (f a ++ m)) l -> fold_right (fun a P => S a /\ P) True l -> linked m ->
  linked (flat_map f l ++ m).
Proof.
  intros H. induction H as [|a l Ha _ IH]; cbn; [easy|]. intros [Sa Sl] L. rewrite <- app_assoc. auto.
Qed.

Definition Pt (t : tyspec) : Prop := forall l, spaced_type t -> after_type t l -> linked l -> linked (w_type t ++ l).
Definition Pd (d : decl) : Prop := forall l, spaced_decl d -> linked (Bl :: l) -> linked (w_decl d ++ Bl :: l).
Definition Pu (u : ubody) : Prop := forall l, spaced_union u -> linked l -> linked (w_union_body u ++ l).
Definition Pc (s : cspec) : Prop := forall l, spaced_case s -> linked l -> linked (w_case s ++ l).
Lemma opt_linked o l : linked l -> linked (w_opt o ++ l).
Proof. destruct o; cbn; auto. Qed.
Ltac norm := rewrite <- ?app_assoc; cbn [app].
Ltac free := repeat match goal with |- linked (_ :: _) => apply linked_free; [|exact I] end.
Ltac fin := free; first [assumption|easy|apply linked_number; free; assumption|match goal with L : linked (Bl :: _) |- _ => exact (proj2 L) end].
Lemma stop_bracket s : In s ["["; "<"; "*"; ")"; "("; "="; "{"]%string -> stop s.
Proof. cbn. intros H. repeat (destruct H as [<-|H]; [now split|]). easy. Qed.
Ltac stops := first [easy|apply stop_bracket; cbn; tauto].

Lemma linked_leaf t : match t with TsStruct _ | TsUnion _ => True | _ => Pt t end.
Proof.
  destruct t as [[]|[]| | | | | | | |x|[]|[]|]; try exact I; intros m S A L; cbn [w_type w_unsigned app]; free;
    try (split; [now apply (@after_word _ m _ A)|easy]).
  - now apply linked_enum.
  - split; [|easy]. cbn. destruct m as [|[] m]; cbn in A; try easy.
  - easy.
Qed.
Lemma linked_ast : (forall t, Pt t) /\ (forall d, Pd d) /\ (forall u, Pu u) /\ (forall s, Pc s).
Proof.
  assert (HS : forall l, Forall Pd l -> Pt (TsStruct l)).
  { intros l F m S _ L. cbn [w_type]. norm. free. apply (@flat_linked _ spaced_decl); [|exact S|cbn; tauto].
    eapply Forall_impl; [|exact F]. intros d Hd Sd k K. norm. apply Hd; [easy|]. fin. }
  assert (HU : forall u, Pu u -> Pt (TsUnion u)).
  { intros u Hu m S _ L. cbn [w_type]. norm. free. now apply Hu. }
  assert (HV : forall t x l, Pt t -> hard t -> spaced_type t -> match l with Bl :: _ => True | Lit s :: _ => stop s | _ => False end -> linked l ->
             linked (w_type t ++ Sp1 :: Name x :: l)).
  { intros t x l Ht Hh Hs E L. apply Ht; [easy|easy|]. free. split; [|easy]. cbn. destruct l as [|[] l]; easy. }
  assert (H1 : forall t x, Pt t -> Pd (DVariable t x)).
  { intros t x Ht l [Hh Hs] L. cbn [w_decl]. norm. now apply HV. }
  assert (H2 : forall t x v, Pt t -> Pd (DFixedArray t x v)).
  { intros t x v Ht l [Hh Hs] L. cbn [w_decl w_value]. norm. apply HV; try easy; try stops. }
  assert (H3 : forall t x v, Pt t -> Pd (DVariableArray t x v)).
  { intros t x v Ht l [Hh Hs] L. cbn [w_decl]. norm. apply HV; try easy; try stops. free. norm. apply opt_linked. cbn [app]. fin. }
  assert (H4 : forall t x, Pt t -> Pd (DOption t x)).
  { intros t x Ht l Hs L. cbn [w_decl]. norm. apply Ht; [easy|cbn; stops|]. free. split; [|easy]. easy. }
  assert (H5 : forall d, match d with DOpaqueFixed _ _ | DOpaqueVariable _ _ | DString _ _ | DVoid => Pd d | _ => True end).
  { intros []; try exact I; intros l S L; cbn [w_decl w_value]; norm; free; try fin; (split; [cbn; stops|]); free; try fin;
      apply opt_linked; cbn [app]; fin. }
  assert (H6 : forall c specs dflt, Pd c -> Forall Pc specs -> on_opt Pd dflt -> Pu (UBody c specs dflt)).
  { intros c specs dflt Hc Hs Hd l (Sc & Ss & Sd) L. cbn [w_union_body]. norm. free. apply Hc; [easy|]. free.
    apply (@flat_linked _ spaced_case); [|exact Ss|].
    - eapply Forall_impl; [|exact Hs]. intros s H S m M. norm. apply H; [easy|]. fin.
    - destruct dflt as [d|]; norm; free; norm; [|easy]. cbn in Hd. apply Hd; [easy|]. fin. }
  assert (H7 : forall vs d, Pd d -> Pc (CaseSpec vs d)).
  { intros vs d Hd l S L. cbn [w_case]. norm. apply linked_lits. norm. apply Hd; [easy|]. fin. }
  repeat split; intros a.
  - exact (type_ind linked_leaf HS HU H1 H2 H3 H4 H5 H6 H7 a).
  - exact (decl_ind linked_leaf HS HU H1 H2 H3 H4 H5 H6 H7 a).
  - exact (union_ind linked_leaf HS HU H1 H2 H3 H4 H5 H6 H7 a).
  - exact (case_ind linked_leaf HS HU H1 H2 H3 H4 H5 H6 H7 a).
Qed.
Lemma forall_fold {A} (P : A -> Prop) l : Forall P l <-> fold_right (fun a Q => P a /\ Q) True l.
Proof. induction l as [|a l IH]; cbn; [now split|]. now rewrite <- IH, Forall_cons_iff. Qed.
Lemma linked_program p l : spaced_definition (DefProgram p) -> linked l -> linked (w_program p ++ l).
Proof.
  destruct linked_ast as (Ht & _). intros S L. unfold w_program. norm. free. split; [exact I|]. free.
  apply (@flat_linked _ (fun v => Forall (fun q => hard (pr_res q) /\ spaced_type (pr_res q) /\ spaced_type (pr_req q)) (vs_procs v)));
    [|now apply forall_fold|fin].
  apply Forall_forall. intros v _ Sv m M. unfold w_version. norm. free. split; [exact I|]. free.
  apply (@flat_linked _ (fun q => hard (pr_res q) /\ spaced_type (pr_res q) /\ spaced_type (pr_req q)));
    [|now apply forall_fold|fin].
  apply Forall_forall. intros q _ (Q1 & Q2 & Q3) k K. unfold w_procedure. norm. apply Ht; [easy|easy|]. free. split; [exact I|]. free.
  apply Ht; [easy|cbn; stops|]. fin.
Qed.
Lemma linked_definition d l : spaced_definition d -> linked l -> linked (w_definition d ++ Bl :: l).
Proof.
  destruct linked_ast as (_ & Hd & Hu & _). intros S L. destruct d as [[d|x b|x b|x u]|a| |p]; cbn [w_definition w_typedef spaced_definition] in *; norm; free.
  - apply Hd; [easy|]. fin.
  - split; [exact I|]. free. apply linked_enum. fin.
  - split; [exact I|]. free. unfold w_struct_body. norm. free. apply (@flat_linked _ spaced_decl); [|now apply forall_fold|fin].
    apply Forall_forall. intros d _ Sd m M. norm. apply Hd; [easy|]. fin.
  - split; [exact I|]. free. apply Hu; [easy|]. fin.
  - cbn. tauto.
  - easy.
  - apply linked_program; [easy|]. fin.
Qed.
Lemma linked_spec ds : Forall spaced_definition ds -> linked (w_spec ds).
Proof.
  intros S. destruct ds as [|d ds]; [easy|]. cbn [w_spec]. free. induction S as [|e l He _ IH]; [easy|].
  cbn [flat_map]. norm. now apply linked_definition.
Qed.

Lemma print_parses ds : writable ds -> greturns (fun n => parse n (print ds)) (GOk ds).
Proof. intros [G S]. apply c31. split; [easy|]. apply render_written. now apply linked_spec. Qed.

(** ** Nothing else can be written *)
Lemma hard_before t l i r : written (w_type t ++ Sp1 :: l) i r -> hard t.
Proof.
  intros W. destruct t; try exact I. cbn [w_type app] in W. intros H.
  apply w_cons_inv in W as (u & j & -> & (-> & N & C) & W). apply w_cons_inv in W as (w & k & -> & (Sw & Nw) & W).
  apply (C H). destruct w as [|c w]; [easy|]. now inversion Sw.
Qed.

Definition Wt (t : tyspec) : Prop := forall i r, written (w_type t) i r -> spaced_type t.
Definition Wd (d : decl) : Prop := forall i r, written (w_decl d) i r -> spaced_decl d.
Definition Wu (u : ubody) : Prop := forall i r, written (w_union_body u) i r -> spaced_union u.
Definition Wc (s : cspec) : Prop := forall i r, written (w_case s) i r -> spaced_case s.
Lemma w_app_left l m i r : written (l ++ m) i r -> exists j, written l i j.
Proof. intros W. apply w_app_inv in W as (j & W & _). eauto. Qed.
Lemma w_app_right l m i r : written (l ++ m) i r -> exists j, written m j r.
Proof. intros W. apply w_app_inv in W as (j & _ & W). eauto. Qed.
Lemma w_flat {A} (S : A -> Prop) (f : A -> list piece) l : Forall (fun a => forall i r, written (f a) i r -> S a) l ->
  forall i r, written (flat_map f l) i r -> Forall S l.
Proof.
  intros H. induction H as [|a l Ha _ IH]; intros i r W; [constructor|]. cbn in W. apply w_app_inv in W as (j & W1 & W2).
  constructor; eauto.
Qed.
Ltac left_of W := apply w_app_left in W as [? W].
Ltac right_of W := apply w_app_right in W as [? W].

Lemma written_ast : (forall t, Wt t) /\ (forall d, Wd d) /\ (forall u, Wu u) /\ (forall s, Wc s).
Proof.
  assert (HL : forall t, match t with TsStruct _ | TsUnion _ => True | _ => Wt t end).
  { intros []; try exact I; now intros i r _. }
  assert (HS : forall l, Forall Wd l -> Wt (TsStruct l)).
  { intros l F i r W. cbn [w_type] in W. right_of W. left_of W. cbn. apply forall_fold. eapply w_flat; [|exact W].
    eapply Forall_impl; [|exact F]. intros d Hd j k K. left_of K. exact (Hd _ _ K). }
  assert (HU : forall u, Wu u -> Wt (TsUnion u)).
  { intros u Hu i r W. cbn [w_type] in W. right_of W. exact (Hu _ _ W). }
  assert (HV : forall t l, Wt t -> forall i r, written (w_type t ++ Sp1 :: l) i r -> hard t /\ spaced_type t).
  { intros t l Ht i r W. split; [exact (hard_before W)|]. left_of W. exact (Ht _ _ W). }
  assert (H1 : forall t x, Wt t -> Wd (DVariable t x)) by (intros t x Ht i r W; exact (HV _ _ Ht _ _ W)).
  assert (H2 : forall t x v, Wt t -> Wd (DFixedArray t x v)) by (intros t x v Ht i r W; exact (HV _ _ Ht _ _ W)).
  assert (H3 : forall t x v, Wt t -> Wd (DVariableArray t x v)) by (intros t x v Ht i r W; exact (HV _ _ Ht _ _ W)).
  assert (H4 : forall t x, Wt t -> Wd (DOption t x)).
  { intros t x Ht i r W. cbn [w_decl] in W. left_of W. exact (Ht _ _ W). }
  assert (H5 : forall d, match d with DOpaqueFixed _ _ | DOpaqueVariable _ _ | DString _ _ | DVoid => Wd d | _ => True end).
  { intros []; try exact I; now intros i r _. }
  assert (H6 : forall c specs dflt, Wd c -> Forall Wc specs -> on_opt Wd dflt -> Wu (UBody c specs dflt)).
  { intros c specs dflt Hc Hs Hd i r W. cbn [w_union_body] in W. right_of W. apply w_app_inv in W as (j & W1 & W). right_of W.
    apply w_app_inv in W as (k & W2 & W). split; [exact (Hc _ _ W1)|]. split.
    - apply forall_fold. eapply w_flat; [|exact W2]. eapply Forall_impl; [|exact Hs]. intros s H a b K. left_of K. exact (H _ _ K).
    - destruct dflt as [d|]; [|easy]. left_of W. right_of W. left_of W. exact (Hd _ _ W). }
  assert (H7 : forall vs d, Wd d -> Wc (CaseSpec vs d)).
  { intros vs d Hd i r W. cbn [w_case] in W. right_of W. left_of W. exact (Hd _ _ W). }
  repeat split; intros a.
  - exact (type_ind HL HS HU H1 H2 H3 H4 H5 H6 H7 a).
  - exact (decl_ind HL HS HU H1 H2 H3 H4 H5 H6 H7 a).
  - exact (union_ind HL HS HU H1 H2 H3 H4 H5 H6 H7 a).
  - exact (case_ind HL HS HU H1 H2 H3 H4 H5 H6 H7 a).
Qed.
Lemma written_definition d i r : written (w_definition d) i r -> spaced_definition d.
Proof.
  destruct written_ast as (Ht & Hd & Hu & _). intros W.
  destruct d as [[d|x b|x b|x u]|a| |p]; cbn [w_definition w_typedef spaced_definition] in *; try exact I.
  - right_of W. left_of W. exact (Hd _ _ _ W).
  - right_of W. left_of W. unfold w_struct_body in W. right_of W. left_of W. eapply w_flat; [|exact W].
    apply Forall_forall. intros d _ j k K. left_of K. exact (Hd _ _ _ K).
  - right_of W. left_of W. exact (Hu _ _ _ W).
  - unfold w_program in W. right_of W. left_of W. eapply w_flat; [|exact W]. apply Forall_forall. intros v _ j k K.
    unfold w_version in K. right_of K. left_of K. eapply w_flat; [|exact K]. apply Forall_forall. intros q _ a b Q.
    left_of Q. unfold w_procedure in Q. pose proof (hard_before Q) as H. apply w_app_inv in Q as (c & Q1 & Q). right_of Q. left_of Q.
    split; [exact H|]. split; [exact (Ht _ _ _ Q1)|exact (Ht _ _ _ Q)].
Qed.
Lemma parsed_writable t ds : greturns (fun n => parse n t) (GOk ds) -> writable ds.
Proof.
  intros P. destruct (c32 P) as [G W]. split; [easy|]. destruct ds as [|d ds]; [constructor|]. unfold w_spec in W.
  apply (@w_app_right [Bl]) in W as [j W]. eapply w_flat; [|exact W]. apply Forall_forall. intros e _ a b Q. left_of Q.
  exact (written_definition Q).
Qed.

Lemma writable_iff ds : writable ds <-> exists t, greturns (fun n => parse n t) (GOk ds).
Proof. split; [intros W; exists (print ds); now apply print_parses|intros [t P]; exact (parsed_writable P)]. Qed.
Lemma reprint t ds : greturns (fun n => parse n t) (GOk ds) -> greturns (fun n => parse n (print ds)) (GOk ds).
Proof. intros P. apply print_parses. exact (parsed_writable P). Qed.
Lemma print_inj ds ds' : writable ds -> writable ds' -> print ds = print ds' -> ds = ds'.
Proof.
  intros W W' E. apply print_parses in W, W'. rewrite E in W. destruct W as (_ & n & A), W' as (_ & m & B).
  specialize (A (n + m)%nat ltac:(lia)). specialize (B (n + m)%nat ltac:(lia)). congruence.
Qed.
