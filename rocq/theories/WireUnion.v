(** Meaning of generated unions: the emitted item. *)
From Coq Require Import Sorting.Permutation.
From Verif Require Import Base RustTypes SpecXdr SpecTypes XdrFacts Nom NomFacts Keyword Ast ParserModel
  SpecGrammar SpecParse ConstProofs CaseModel SpecCase CaseProofs RustAst GenModel SpecGen GenFacts
  GenPanic SpecItems GenLemmas SpecXdl GenSem WireBase WireEnum WireTok WireStruct.
Set Implicit Arguments.
Unset Strict Implicit.
Local Open Scope list_scope.

(** a case: number, arm, label *)
Definition ent := (Z * decl * value)%type.
Definition ez (e : ent) : Z := fst (fst e).
Definition ed (e : ent) : decl := snd (fst e).
Definition ev (e : ent) : value := snd e.
Definition ename (e : ent) : string := match ev e with VIdent x => camel x | VConst _ => EmptyString end.

Lemma TsBool_dec t : t = TsBool \/ t <> TsBool.
Proof. destruct t; (now left) || (now right). Qed.

Definition resv (z : Z) : variant := Variant ANone (TokId (reserved_name z)) [].

Section Union.
  Variables (cfg : config) (ds : list definition).
  Hypothesis G : good_spec ds.
  Hypothesis RM : remove_typedef cfg = true.
  Hypothesis NT : NoDup (map fst (type_defs ds)).
  Hypothesis IN : forall x t, In (x, t) (type_defs ds) -> is_typedef t = false -> type_name_ok x.
  Let cx := ctx cfg ds.

  (** the arm as attribute and types *)
  Definition arm_facts (d : decl) (a : attr) (tys : list rty) : Prop :=
    d = DVoid /\ a = ANone /\ tys = [] \/
    exists k ty, dkind cfg ds d k /\ dtok ds d ty (op_of k) /\ k <> KStd /\
      (if union_complement_index cfg then a = attr_of k /\ tys = [ty]
       else a = ANone /\ ((k = KPlain \/ k = KDense) /\ tys = [ty] \/ k = KVar /\ tys = [YVarArray])).
  Definition disc_tys (cty : rty) : list rty := if union_impl_union cfg then [cty] else [].
  Definition ent_variant (cty : rty) (c : ent * variant) : Prop :=
    va_name (snd c) = TokId (ename (fst c)) /\
    exists tys, arm_facts (ed (fst c)) (va_attr (snd c)) tys /\ va_tys (snd c) = disc_tys cty ++ tys.
  Definition has_paren (va : variant) : bool :=
    negb (Nat.eqb (length (va_tys va)) (if union_impl_union cfg then 1 else 0)).

  Definition good_ent (e : ent) : Prop :=
    (exists x, ev e = VIdent x /\ good_name x /\ variant_name_ok x) /\
    arm_ok cfg ds (ed e) /\ good_decl (ed e) /\ 0 <= ez e < 2 ^ 32 /\
    (union_complement_index cfg = true -> ez e < 2 ^ 31) /\
    (overflow_checks cfg = true -> ez e < 2 ^ 32 - 1).

  Lemma case_wp n e cond k : good_ent e -> tkind cfg ds cond k ->
    wp (convert_case_token cx n (ev e) (ed e) cond) (fun ct => exists cty va,
      tok ds cond cty (op_of k) /\ ent_variant cty (e, va) /\
      ct = CaseToken (TokId (ename e)) (has_paren va) va (length (va_tys va)) cty).
  Proof.
    intros ((x & Ex & gx & vx) & A & gd & _) K. unfold convert_case_token. unfold ename. rewrite Ex.
    cbn [convert_value_token].
    apply wp_bind with (P := eq (TokId (camel x))).
    { eapply wp_bind; [exact (camel_wp gx (proj1 vx))|]. now intros ? <-. }
    intros ? <-.
    apply wp_bind with (P := fun cty => tok ds cond cty (op_of k)).
    { pose proof (proj1 (tok_wp G RM IN) cond k K n) as W. fold cx in W.
      destruct (convert_primitive_token (resolve_type_token cx n) cond) as [[cty op]|e0| |]; try easy.
      cbn in *. now rewrite <- (proj1 (op_kind ds cfg) _ _ K _ _ W). }
    intros cty HC. change (cx_config cx) with cfg.
    destruct A as [ED|(k' & D & NS & NF)].
    - rewrite ED. cbn [convert_type_token gbind wp]. exists cty, (Variant ANone (TokId (camel x)) (disc_tys cty)).
      split; [easy|]. split.
      + split; [cbn; unfold ename; now rewrite Ex|]. exists []. split; [now left|]. cbn. now rewrite app_nil_r.
      + unfold has_paren, disc_tys. cbn. now destruct (union_impl_union cfg).
    - eapply wp_bind; [exact (proj2 (tok_wp G RM IN) _ _ D n gd)|]. intros ? (ty & op & -> & T).
      assert (O : op = op_of k') by exact (proj2 (op_kind ds cfg) _ _ D _ _ T). subst op. cbn [wp].
      assert (W : exists a tys, arm_facts (ed e) a tys /\ length tys = 1%nat /\
        (let wrapped := match op_of k' with OpNone => false | _ => negb (union_complement_index cfg) end in
         a = (if wrapped then ANone else match op_of k' with OpFixed => AFixed | OpVariable => AVariable | OpNone => ANone end) /\
         tys = [if wrapped then YVarArray else ty])).
      { destruct (union_complement_index cfg) eqn:ci.
        - exists (attr_of k'), [ty]. split; [right; exists k', ty; rewrite ci; easy|]. split; [easy|].
          destruct k'; try easy.
        - destruct k'; try easy.
          + exists ANone, [ty]. split; [right; exists KPlain, ty; rewrite ci; repeat split; try easy; left; split; [now left|easy]|easy].
          + specialize (NF eq_refl). discriminate.
          + exists ANone, [YVarArray]. split; [right; exists KVar, ty; rewrite ci; repeat split; try easy; right; split; [easy|easy]|easy].
          + exists ANone, [ty]. split; [right; exists KDense, ty; rewrite ci; repeat split; try easy; left; split; [now right|easy]|easy]. }
      destruct W as (a & tys & AF & L & Ea & Et). cbv zeta.
      rewrite <- Ea. rewrite Et in *. match goal with |- context [Variant a _ [?t]] => set (ty' := t) in * end.
      exists cty, (Variant a (TokId (camel x)) (disc_tys cty ++ [ty'])). split; [easy|]. split.
      + split; [cbn; unfold ename; now rewrite Ex|]. exists [ty']. easy.
      + unfold has_paren, disc_tys. cbn. now destruct (union_impl_union cfg).
  Qed.

  (** positions of the variants when gaps are filled *)
  Definition filledv (s : Z) (cs : list (ent * variant)) (vs : list variant) : Prop :=
    (exists hi, s <= hi <= 2 ^ 31 /\ zlen vs = hi - s) /\
    (forall c, In c cs -> nth_error vs (Z.to_nat (ez (fst c) - s)) = Some (snd c)) /\
    (forall i va, nth_error vs i = Some va -> va = resv (s + Z.of_nat i) \/
       exists c, In c cs /\ va = snd c /\ ez (fst c) = s + Z.of_nat i).

  (** the last position is that of a case *)
  Definition endsv (s : Z) (cs : list (ent * variant)) (vs : list variant) : Prop :=
    vs = [] \/ exists c, In c cs /\ s + zlen vs = ez (fst c) + 1.

  Lemma endsv_cons s cs vs c : endsv (ez (fst c) + 1) cs vs -> s <= ez (fst c) ->
    endsv s (c :: cs) (map resv (zrange s (ez (fst c))) ++ snd c :: vs).
  Proof.
    intros H R. right. rewrite zlen_app. assert (LZ : zlen (map resv (zrange s (ez (fst c)))) = ez (fst c) - s).
    { unfold zlen, zrange. rewrite !map_length, seq_length. lia. }
    destruct H as [->|(c' & Hc & E)].
    - exists c. split; [now left|]. rewrite LZ. unfold zlen. cbn [length]. lia.
    - exists c'. split; [now right|]. rewrite LZ, <- E. unfold zlen. cbn [length]. lia.
  Qed.

  Lemma filledv_cons s cs vs c : filledv (ez (fst c) + 1) cs vs -> 0 <= s <= ez (fst c) ->
    (forall c', In c' cs -> ez (fst c) + 1 <= ez (fst c')) ->
    filledv s (c :: cs) (map resv (zrange s (ez (fst c))) ++ snd c :: vs).
  Proof.
    intros ((hi & Hhi & L) & A & B) R C. set (e := ez (fst c)) in *.
    assert (LZ : length (map resv (zrange s e)) = Z.to_nat (e - s)) by (unfold zrange; now rewrite !map_length, seq_length).
    split; [|split].
    - exists hi. split; [lia|]. unfold zlen in *. rewrite app_length, LZ. cbn [length]. lia.
    - intros c' [<-|H].
      + rewrite nth_error_app2 by (fold e; lia). fold e. rewrite LZ, Nat.sub_diag. easy.
      + specialize (A _ H). pose proof (C _ H). rewrite nth_error_app2 by lia. rewrite LZ.
        replace (Z.to_nat (ez (fst c') - s) - Z.to_nat (e - s))%nat with (S (Z.to_nat (ez (fst c') - (e + 1)))) by lia. exact A.
    - intros i va H. destruct (Nat.lt_ge_cases i (Z.to_nat (e - s))) as [l|l].
      + rewrite nth_error_app1 in H by (rewrite LZ; lia). rewrite nth_error_map, zrange_nth in H by easy.
        injection H as <-. now left.
      + rewrite nth_error_app2, LZ in H by lia. destruct (i - Z.to_nat (e - s))%nat as [|j] eqn:E; cbn in H.
        * injection H as <-. right. exists c. split; [now left|]. split; [easy|]. fold e. lia.
        * destruct (B _ _ H) as [->|(c' & H1 & H2 & H3)].
          -- left. f_equal. lia.
          -- right. exists c'. split; [now right|]. split; [easy|]. lia.
  Qed.

  Definition pat_of (cond : tyspec) (e : ent) : pat :=
    match cond with
    | TsBool => PtBool (ez e =? 1)
    | TsIdent c => if is_enum_type cx cond then PtPath (camel c) (ename e) else PtNum (ez e)
    | _ => PtNum (ez e)
    end.

  Definition cname (c : ent * variant) : vtoken := TokId (ename (fst c)).
  Definition first_default (cs : list (ent * variant)) : option (vtoken * nat) :=
    match cs with [] => None | c :: _ => Some (cname c, length (va_tys (snd c))) end.
  Definition last_cond (cty : rty) (o : option rty) (cs : list (ent * variant)) : option rty :=
    match cs with [] => o | _ => Some cty end.

  (** what the loops add *)
  Record added (cond : tyspec) (cty : rty) (cs : list (ent * variant)) (vs : list variant)
      (acc p : union_parts) : Prop := Added
    { ad_specs : up_specs p = up_specs acc ++ vs;
      ad_names : up_names p = up_names acc ++ map (fun c => (as_i32 (ez (fst c)), cname c)) cs;
      ad_index : up_index p = up_index acc ++ map (fun c => (cname c, has_paren (snd c), as_i32 (ez (fst c)))) cs;
      ad_values : up_values p = up_values acc ++ map (fun c => (pat_of cond (fst c), cname c)) cs;
      ad_default : up_default p = opt_first (up_default acc) (first_default cs) }.

  Lemma tok_fun :
    (forall t k, tkind cfg ds t k -> forall ty op, tok ds t ty op -> forall ty' op', tok ds t ty' op' -> ty = ty') /\
    (forall d k, dkind cfg ds d k -> forall ty op, dtok ds d ty op -> forall ty' op', dtok ds d ty' op' -> ty = ty').
  Proof.
    assert (LF : forall v a b, len_tok v a -> len_tok v b -> a = b).
    { intros v a b H K. destruct H; inversion K; subst; [|easy]. f_equal. eauto using stands_fun. }
    apply tkind_dkind_ind;
      try (intros; match goal with H : tok _ _ _ _, K : tok _ _ _ _ |- _ => inversion H; inversion K; subst end;
           try easy; match goal with A : first ?x _ _, B : first ?x _ _ |- _ => discriminate (first_fun A B) end).
    - intros x d k F _ IH _ ty op H ty' op' H'.
      inversion H as [| | | | | | |? t F1 T|? d1 ? ? F1 D1]; subst; [rewrite <- (first_fun F F1) in T; discriminate|].
      inversion H' as [| | | | | | |? t F2 T|? d2 ? ? F2 D2]; subst; [rewrite <- (first_fun F F2) in T; discriminate|].
      pose proof (first_fun F F1) as e1. injection e1 as <-. pose proof (first_fun F F2) as e2. injection e2 as <-. eauto.
    - intros x d F _ IH ty op H ty' op' H'.
      inversion H as [| | | | | | |? t F1 T|? d1 ? ? F1 D1]; subst; [rewrite <- (first_fun F F1) in T; discriminate|].
      inversion H' as [| | | | | | |? t F2 T|? d2 ? ? F2 D2]; subst; [rewrite <- (first_fun F F2) in T; discriminate|].
      pose proof (first_fun F F1) as e1. injection e1 as <-. pose proof (first_fun F F2) as e2. injection e2 as <-. eauto.
    - intros t x k _ IH ty op H ty' op' H'. inversion H; inversion H'; subst. eauto.
    - intros t x c z _ IH _ _ ty op H ty' op' H'. inversion H; inversion H'; subst. f_equal; eauto.
    - intros t x m k K IH _ ty op H ty' op' H'.
      inversion H as [| |? ? ? t1 J1|? ? ? t1 o1 J1 N1| | | |]; subst;
      inversion H' as [| |? ? ? t2 J2|? ? ? t2 o2 J2 N2| | | |]; subst; try easy.
      + exfalso. apply N2. rewrite (proj1 (op_kind ds cfg) _ _ K _ _ J2). symmetry. exact (proj1 (op_kind ds cfg) _ _ K _ _ J1).
      + exfalso. apply N1. rewrite (proj1 (op_kind ds cfg) _ _ K _ _ J1). symmetry. exact (proj1 (op_kind ds cfg) _ _ K _ _ J2).
      + f_equal. eauto.
    - intros x v _ ty op H ty' op' H'. inversion H; inversion H'; subst. f_equal; eauto.
    - intros x m ty op H ty' op' H'. inversion H; inversion H'; subst. easy.
    - intros x m ty op H ty' op' H'. inversion H; inversion H'; subst. easy.
    - intros t x _ IH ty op H ty' op' H'. inversion H; inversion H'; subst. f_equal; eauto.
  Qed.

  (** every supported type is emitted *)
  Lemma tok_total :
    (forall t k, tkind cfg ds t k -> exists ty, tok ds t ty (op_of k)) /\
    (forall d k, dkind cfg ds d k -> exists ty, dtok ds d ty (op_of k)).
  Proof.
    apply tkind_dkind_ind; try (intros; eexists; first [solve [eapply to_item; [eassumption|reflexivity]] | solve [econstructor]]).
    - intros x d k F _ [ty H] _. exists ty. now apply to_typedef with d.
    - intros x d F _ [ty H]. exists ty. now apply to_typedef with d.
    - intros t x k _ [ty H]. exists ty. now constructor.
    - intros t x c z _ [ty H] S _. eexists. eapply do_array; [exact H|econstructor; exact S].
    - intros t x m k _ [ty H] [->| ->]; eexists; [now apply do_vararray with (1 := H)|now apply do_vararray_var with ty].
    - intros x v L. destruct v as [c|y].
      + destruct L as [(z & V & _) _]. inversion V; subst. eexists. eapply do_opaque. econstructor. eassumption.
      + eexists. eapply do_opaque. econstructor.
    - intros t x _ [ty H]. eexists. eapply do_option. exact H.
  Qed.

  Lemma values_wp n cond k cty : tkind cfg ds cond k -> tok ds cond cty (op_of k) -> cond <> TsBool ->
    (forall c y l, cond = TsIdent c -> In (c, TdEnum y l) (type_defs ds) -> camelable c) ->
    forall es s acc, Forall good_ent es -> 0 <= s -> climbs ez s es ->
    (union_complement_index cfg = true -> s <= 2 ^ 31) ->
    wp (union_values cx n cond s es acc) (fun p => exists cs vs, map fst cs = es /\
      Forall (ent_variant cty) cs /\ added cond cty cs vs acc p /\ up_cond p = last_cond cty (up_cond acc) cs /\
      (union_complement_index cfg = true -> filledv s cs vs /\ endsv s cs vs) /\
      (union_complement_index cfg = false -> vs = map snd cs)).
  Proof.
    intros K TC NB CC es. induction es as [|e es IH]; intros s acc F Hs C Hs'.
    - cbn. exists [], []. split; [easy|]. split; [constructor|]. split; [|split; [easy|]].
      + constructor; try (cbn; now rewrite app_nil_r). now destruct (up_default acc).
      + split; [|easy]. intros ci. split; [|now left]. split; [exists s; specialize (Hs' ci); unfold zlen; cbn; lia|].
        split; [easy|]. intros [|i] va H; discriminate.
    - inversion F as [|? ? Fe F']; subst. inversion C as [|? ? ? h C']; subst.
      assert (U : union_values cx n cond s (e :: es) acc =
        gbind (if union_complement_index cfg then gmap reserved_variant (zrange s (ez e)) else GOk []) (fun fill =>
        gbind (convert_case_token cx n (ev e) (ed e) cond) (fun ct =>
        gbind (if is_enum_type cx cond then
                 match cond with
                 | TsIdent c => gbind (upper_camel_case_ident c) (fun c_ident =>
                     match ev e with
                     | VIdent x => gbind (upper_camel_case_ident x) (fun x_ident => GOk [(PtPath c_ident x_ident, ct_name ct)])
                     | VConst _ => GOk [] end)
                 | _ => GOk [] end
               else GOk [(PtNum (ez e), ct_name ct)]) (fun by_value =>
        gbind (succ_checked (overflow_checks cfg) false (ez e)) (fun s' =>
        union_values cx n cond s' es
            (UnionParts (up_specs acc ++ fill ++ [ct_variant ct])
                        (up_names acc ++ [(as_i32 (ez e), ct_name ct)])
                        (up_index acc ++ [(ct_name ct, ct_paren ct, as_i32 (ez e))])
                        (up_values acc ++ by_value)
                        (opt_first (up_default acc) (Some (ct_name ct, ct_args ct)))
                        (Some (ct_cond ct)))))))).
      { destruct e as [[z d] v]. reflexivity. }
      rewrite U. clear U.
      pose proof Fe as ((x & Ex & gx & vx) & _ & _ & Rz & Rc & Ro).
      apply wp_bind with (P := fun fill => fill = if union_complement_index cfg then map resv (zrange s (ez e)) else []).
      { destruct (union_complement_index cfg); [|easy]. rewrite (@fill_ok _ _ resv); [easy|easy|].
        intros z Hz. unfold reserved_variant. now rewrite reserved_ok. }
      intros fill EF.
      eapply wp_bind; [exact (case_wp n Fe K)|]. intros ? (cty' & va & T' & EV & ->).
      assert (cty' = cty) by exact (proj1 tok_fun _ _ K _ _ T' _ _ TC). subst cty'. cbn [ct_name ct_variant ct_paren ct_args ct_cond].
      apply wp_bind with (P := eq [(pat_of cond e, TokId (ename e))]).
      { unfold pat_of. destruct (is_enum_type cx cond) eqn:ie.
        - apply (enum_type_spec cfg G NT) in ie as (c & y & l & -> & FE). apply first_in in FE.
          eapply wp_bind; [apply camel_wp; [now apply (type_good G FE)|now apply (CC c y l)]|]. intros ? <-.
          unfold ename. rewrite Ex. eapply wp_bind; [exact (camel_wp gx (proj1 vx))|]. now intros ? <-.
        - now destruct cond. }
      intros ? <-.
      apply wp_bind with (1 := @succ_wp cfg false (ez e) Ro ltac:(cbv iota; lia)). intros s' Es.
      (* the rest *)
      match goal with |- wp (union_values _ _ _ _ _ ?a) _ => set (acc' := a) end.
      assert (R : wp (union_values cx n cond s' es acc') (fun p => exists cs vs, map fst cs = es /\
        Forall (ent_variant cty) cs /\ added cond cty cs vs acc' p /\ up_cond p = last_cond cty (up_cond acc') cs /\
        (union_complement_index cfg = true -> filledv (ez e + 1) cs vs /\ endsv (ez e + 1) cs vs) /\
        (union_complement_index cfg = false -> vs = map snd cs))).
      { destruct Es as [->|Ee].
        - apply IH; try easy; [lia|]. intros ci. specialize (Rc ci). lia.
        - destruct es as [|e' es]; [|exfalso; inversion C' as [|? ? ? h' _]; subst; inversion F' as [|? ? (_ & _ & _ & r & _) _]; subst; lia].
          cbn. exists [], []. split; [easy|]. split; [constructor|]. split; [|split; [easy|]].
          + constructor; try (cbn; now rewrite app_nil_r). now destruct (up_default acc).
          + split; [|easy]. intros ci. specialize (Rc ci). lia. }
      apply wp_mono with (1 := R). intros p (cs & vs & M & FV & [A1 A2 A3 A4 A5] & UC & V1 & V2).
      exists ((e, va) :: cs), (fill ++ va :: vs). split; [cbn; now f_equal|]. split; [now constructor|]. split; [|split; [|split]].
      + constructor.
        * rewrite A1. cbn. rewrite <- !app_assoc. easy.
        * rewrite A2. cbn. now rewrite <- app_assoc.
        * rewrite A3. cbn. now rewrite <- app_assoc.
        * rewrite A4. cbn. now rewrite <- app_assoc.
        * rewrite A5. cbn. now destruct (up_default acc).
      + rewrite UC. cbn. now destruct cs.
      + intros ci. rewrite ci in EF. subst fill. split; [|apply (@endsv_cons s cs vs (e, va)); [now apply V1|cbn; lia]].
        apply (@filledv_cons s cs vs (e, va)); [now apply V1|cbn; lia|].
        cbn. intros c' Hc. destruct (climbs_nodup C') as [_ H]. apply H. rewrite <- M. now apply in_map.
      + intros ci. rewrite ci in EF. subst fill. cbn. now rewrite (V2 ci).
  Qed.

  Lemma bool_wp n (b : bool) specs acc :
    let nm := (if b then "TRUE" else "FALSE")%string in let z := if b then 1 else 0 in
    Forall good_case specs -> Forall (fun s => match s with CaseSpec _ d => arm_ok cfg ds d end) specs ->
    (In (VIdent nm) (labels specs) -> variant_name_ok nm) ->
    wp (bool_case cx n TsBool b specs acc) (fun p => exists cs vs,
      Forall (ent_variant YBool) cs /\ added TsBool YBool cs vs acc p /\ up_cond p = up_cond acc /\
      ((exists ls d, In (CaseSpec ls d) specs /\ In (VIdent nm) ls /\ map fst cs = [(z, d, VIdent nm)] /\
          good_ent (z, d, VIdent nm) /\ vs = map snd cs) \/
       ~ In (VIdent nm) (labels specs) /\ cs = [] /\
       vs = (if union_complement_index cfg then [resv z] else []))).
  Proof.
    intros nm z gs as' vn. unfold bool_case. rewrite Forall_forall in gs, as'.
    assert (TS : forall v, (if b then is_true else is_false) v = true <-> v = VIdent nm).
    { intros [c|x]; cbn; [now destruct b|]. unfold nm. destruct b; cbn; rewrite String.eqb_eq; split; congruence. }
    set (test := if b then is_true else is_false) in *. fold z.
    destruct (find _ specs) as [[ls d]|] eqn:fs.
    - apply find_some in fs as [Hs Ht]. apply existsb_exists in Ht as (v & Hv & Tv). apply TS in Tv. subst v.
      destruct (find test ls) as [v|] eqn:fv.
      2: { exfalso. apply find_none with (x := VIdent nm) in fv; [|easy]. rewrite (proj2 (TS _) eq_refl) in fv. discriminate. }
      apply find_some in fv as [_ Tv]. apply TS in Tv. subst v.
      assert (IL : In (VIdent nm) (labels specs)).
      { unfold labels. apply in_flat_map. exists (CaseSpec ls d). easy. }
      destruct (gs _ Hs) as (_ & gv & gd). rewrite Forall_forall in gv. specialize (gv _ Hv). cbn in gv.
      assert (GE : good_ent (z, d, VIdent nm)).
      { split; [exists nm; split; [easy|split; [easy|now apply vn]]|]. split; [exact (as' _ Hs)|]. split; [easy|].
        unfold ez, z. cbn. split; [destruct b; lia|]. split; [destruct b; lia|destruct b; lia]. }
      eapply wp_bind; [exact (case_wp n GE (tk_bool cfg ds))|]. intros ? (cty & va & T & EV & ->). inversion T; subst cty.
      cbn [wp ct_name ct_variant ct_paren ct_args ct_cond].
      exists [((z, d, VIdent nm), va)], [va]. split; [now constructor|]. split; [|split; [easy|]].
      + assert (AZ : as_i32 z = z) by (unfold z; now destruct b).
        assert (PB : (z =? 1) = b) by (unfold z; now destruct b).
        constructor; cbn [map up_specs up_names up_index up_values up_default]; try easy;
          unfold cname, pat_of, ez; cbn [fst snd]; rewrite ?AZ, ?PB; easy.
      + left. exists ls, d. easy.
    - assert (N : ~ In (VIdent nm) (labels specs)).
      { intros H. unfold labels in H. apply in_flat_map in H as ([ls d] & Hs & Hv).
        apply find_none with (x := CaseSpec ls d) in fs; [|easy].
        assert (E : existsb test ls = true); [|congruence]. apply existsb_exists. exists (VIdent nm).
        split; [easy|now apply TS]. }
      change (cx_config cx) with cfg. destruct (union_complement_index cfg) eqn:ci.
      + unfold reserved_variant. rewrite reserved_ok by (unfold z; destruct b; lia). cbn.
        exists [], [resv z]. split; [constructor|]. split; [|split; [easy|right; easy]].
        constructor; cbn; rewrite ?app_nil_r; try easy. now destruct (up_default acc).
      + cbn. exists [], []. split; [constructor|]. split; [|split; [easy|right; easy]].
        constructor; cbn; rewrite ?app_nil_r; try easy. now destruct (up_default acc).
  Qed.

  Definition label_entry (specs : list cspec) (e : ent) : Prop :=
    exists vs, In (CaseSpec vs (ed e)) specs /\ In (ev e) vs /\ label_is ds (ev e) (ez e).

  (** what the cases of a union become *)
  Record cases_facts (specs : list cspec) (t : tyspec) (cty : rty) (cs : list (ent * variant))
      (vs : list variant) (p : union_parts) : Prop := CasesFacts
    { cf_tok : exists k, tkind cfg ds t k /\ tok ds t cty (op_of k);
      cf_entry : forall d ls v z, In (CaseSpec ls d) specs -> In v ls -> label_is ds v z ->
        exists va, In ((z, d, v), va) cs;
      cf_cases : forall c, In c cs -> label_entry specs (fst c) /\ good_ent (fst c);
      cf_nonempty : cs <> [];
      cf_variant : Forall (ent_variant cty) cs;
      cf_nums : NoDup (map (fun c => ez (fst c)) cs);
      cf_fill : union_complement_index cfg = true -> filledv 0 cs vs;
      cf_ends : union_complement_index cfg = true -> t = TsBool /\ zlen vs = 2 \/ endsv 0 cs vs;
      cf_plain : union_complement_index cfg = false -> vs = map snd cs;
      cf_added : added t cty cs vs no_parts p;
      cf_cond : up_cond p = Some cty }.

  Lemma uint_kind t : is_uint ds t -> tkind cfg ds t KPlain.
  Proof.
    induction 1 as [|x t y F U IH]; [constructor|]. eapply tk_typedef; [exact F| |now left]. now constructor.
  Qed.
  Lemma disc_kind t ls : disc_ok cfg ds t ls -> exists k, tkind cfg ds t k.
  Proof.
    destruct t; try easy; intros D.
    - exists KPlain. constructor.
    - exists KPlain. constructor.
    - destruct D as (_ & _ & _ & D). destruct (union_impl_union cfg); [|easy].
      destruct D as [U|(e & y & l & [= ->] & F & N & _)]; [exists KPlain; now apply uint_kind|].
      destruct (enum_impl_std_trait cfg) eqn:std.
      + exists KDense. eapply tk_dense; eauto.
      + exists KPlain. eapply tk_enum; eauto.
  Qed.

  Lemma flat_map_unique {A B} (g : A -> list B) l a b v : NoDup (flat_map g l) ->
    In a l -> In b l -> In v (g a) -> In v (g b) -> a = b.
  Proof.
    induction l as [|c l IH]; [easy|]. cbn. intros N. 
    assert (S : NoDup (g c) /\ NoDup (flat_map g l) /\ forall v, In v (g c) -> ~ In v (flat_map g l)).
    { clear - N. induction (g c) as [|x m IH]; cbn in *; [repeat split; [constructor|easy|easy]|].
      inversion N as [|? ? H1 H2]; subst. destruct (IH H2) as (S1 & S2 & S3). repeat split; [|easy|].
      - constructor; [|easy]. intros H. apply H1. apply in_or_app. now left.
      - intros v [<-|Hv]; [|now apply S3]. intros H. apply H1. apply in_or_app. now right. }
    destruct S as (_ & N2 & S). intros [<-|Ha] [<-|Hb] Va Vb; try easy.
    - exfalso. apply (S v Va). apply in_flat_map. eauto.
    - exfalso. apply (S v Vb). apply in_flat_map. eauto.
    - now apply IH.
  Qed.

  Lemma added_trans t cty cs cs' vs vs' a b c : added t cty cs vs a b -> added t cty cs' vs' b c ->
    added t cty (cs ++ cs') (vs ++ vs') a c.
  Proof.
    intros [A1 A2 A3 A4 A5] [B1 B2 B3 B4 B5].
    constructor; rewrite ?map_app, ?app_assoc; try congruence.
    rewrite B5, A5. destruct cs, cs', (up_default a); easy.
  Qed.

  Lemma label_fun v z z' : label_is ds v z -> label_is ds v z' -> z = z'.
  Proof.
    unfold label_is. intros [[-> ->]|[[-> ->]|(N1 & N2 & V)]] [[E ->]|[[E ->]|(M1 & M2 & V')]]; try easy; try congruence.
    now apply value_is_fun with (1 := V).
  Qed.

  Lemma cases_wp n t specs :
    Forall good_case specs -> labels specs <> [] -> disc_ok cfg ds t (labels specs) ->
    Forall variant_name_ok (label_names (labels specs)) ->
    Forall (fun s => match s with CaseSpec _ d => arm_ok cfg ds d end) specs ->
    wp (match t with
        | TsInt _ | TsIdent _ =>
            gbind (gmap (fun s => match s with CaseSpec vs d =>
                   gmap (fun v => gbind (resolve_value cx n KU32 v) (fun z => GOk (z, d, v))) vs end) specs)
                  (fun values => union_values cx n t 0 (sort_by (fun p => fst (fst p)) (concat values)) no_parts)
        | TsBool =>
            gbind (bool_case cx n t false specs no_parts) (fun p =>
            gbind (bool_case cx n t true specs p) (fun p =>
            GOk (UnionParts (up_specs p) (up_names p) (up_index p) (up_values p) (up_default p) (Some YBool))))
        | _ => GErr GNotSupported
        end)
       (fun p => exists cty cs vs, cases_facts specs t cty cs vs p).
  Proof.
    intros gs ne D VN AR. destruct (disc_kind D) as [k K].
    rewrite Forall_forall in VN.
    assert (GS := gs). assert (ARS := AR). rewrite Forall_forall in GS, ARS.
    destruct (TsBool_dec t) as [->|NB].
    - (* bool *)
      destruct D as (ND & LS & _).
      assert (VB : forall b : bool, let nm := (if b then "TRUE" else "FALSE")%string in
        In (VIdent nm) (labels specs) -> variant_name_ok nm).
      { intros b nm H. apply VN. unfold label_names. apply in_flat_map. exists (VIdent nm). split; [easy|now left]. }
      eapply wp_bind; [exact (@bool_wp n false specs no_parts gs AR (VB false))|].
      intros p0 (cs0 & vs0 & V0 & A0 & C0 & H0).
      eapply wp_bind; [exact (@bool_wp n true specs p0 gs AR (VB true))|].
      intros p1 (cs1 & vs1 & V1 & A1 & C1 & H1). cbn [wp].
      exists YBool, (cs0 ++ cs1), (vs0 ++ vs1).
      assert (FIND : forall (b : bool) (cs : list (ent * variant)) vs,
        let nm := (if b then "TRUE" else "FALSE")%string in let z := if b then 1 else 0 in
        (exists ls d, In (CaseSpec ls d) specs /\ In (VIdent nm) ls /\ map fst cs = [(z, d, VIdent nm)] /\
          good_ent (z, d, VIdent nm) /\ vs = map snd cs) \/
        ~ In (VIdent nm) (labels specs) /\ cs = [] /\ vs = (if union_complement_index cfg then [resv z] else []) ->
        (forall d ls, In (CaseSpec ls d) specs -> In (VIdent nm) ls -> exists va, cs = [((z, d, VIdent nm), va)] /\ vs = [va]) /\
        (forall c, In c cs -> label_entry specs (fst c) /\ good_ent (fst c) /\ ez (fst c) = z) /\
        ((exists c, cs = [c] /\ vs = [snd c] /\ ez (fst c) = z) \/
         cs = [] /\ vs = (if union_complement_index cfg then [resv z] else []))).
      { intros b cs vs nm z [(ls & d & Hs & Hl & M & GE & EV)|(N & -> & ->)].
        - destruct cs as [|[e va] [|]]; try discriminate. injection M as ->. split; [|split].
          + intros d' ls' Hs' Hl'. assert (E : CaseSpec ls d = CaseSpec ls' d').
            { apply (@flat_map_unique _ _ (fun s => match s with CaseSpec vs _ => vs end) specs) with (v := VIdent nm); easy. }
            injection E as <- <-. exists va. easy.
          + intros c [<-|[]]. split; [|easy]. exists ls. split; [easy|]. split; [easy|]. cbn. unfold label_is, nm, z, ev, ez.
            cbn. destruct b; [right; left|left]; easy.
          + left. eexists. split; [reflexivity|]. easy.
        - split; [|split].
          + intros d ls Hs Hl. exfalso. apply N. unfold labels. apply in_flat_map. exists (CaseSpec ls d). easy.
          + easy.
          + right. easy. }
      destruct (FIND false cs0 vs0 H0) as (F01 & F02 & F03). destruct (FIND true cs1 vs1 H1) as (F11 & F12 & F13). clear FIND.
      constructor.
      + exists KPlain. split; constructor.
      + intros d ls v z Hs Hv Lz.
        assert (v = VIdent "FALSE" /\ z = 0 \/ v = VIdent "TRUE" /\ z = 1) as [[-> ->]|[-> ->]].
        { assert (Hl : In v (labels specs)) by (apply in_flat_map; exists (CaseSpec ls d); easy).
          destruct (LS v Hl) as [->| ->]; destruct Lz as [[E ->]|[[E ->]|(N1 & N2 & _)]]; try congruence; [now left|now right]. }
        * destruct (F01 d ls Hs Hv) as (va & -> & _). exists va. now left.
        * destruct (F11 d ls Hs Hv) as (va & -> & _). exists va. apply in_or_app. right. now left.
      + intros c Hc. apply in_app_or in Hc as [Hc|Hc]; [now destruct (F02 c Hc)|now destruct (F12 c Hc)].
      + intros E. destruct (labels specs) as [|v ls'] eqn:EL; [easy|].
        assert (Hl : In v (labels specs)) by (rewrite EL; now left).
        assert (Hl' := Hl). unfold labels in Hl'. apply in_flat_map in Hl' as ([ls d] & Hs & Hv).
        destruct (LS v (or_introl eq_refl)) as [->| ->].
        * destruct (F01 d ls Hs Hv) as (va & E' & _). now rewrite E' in E.
        * destruct (F11 d ls Hs Hv) as (va & E' & _). rewrite E' in E. now destruct cs0.
      + apply Forall_app. now split.
      + destruct F03 as [(c0 & -> & _ & E0)|(-> & _)], F13 as [(c1 & -> & _ & E1)|(-> & _)]; cbn; rewrite ?E0, ?E1;
          repeat constructor; cbn; try easy. intros [|[]]; lia.
      + intros ci. rewrite ci in *.
        assert (L : zlen (vs0 ++ vs1) = 2).
        { destruct F03 as [(c0 & _ & -> & _)|(_ & ->)], F13 as [(c1 & _ & -> & _)|(_ & ->)]; reflexivity. }
        split; [exists 2; lia|]. split.
        * intros c Hc. destruct F03 as [(c0 & -> & -> & E0)|(-> & ->)], F13 as [(c1 & -> & -> & E1)|(-> & ->)]; cbn in Hc;
            repeat (destruct Hc as [Hc|Hc]; [subst c; rewrite ?E0, ?E1; reflexivity|]); easy.
        * intros i va Hi. assert (LL : (i < 2)%nat).
          { assert (nth_error (vs0 ++ vs1) i <> None) by congruence. apply nth_error_Some in H. unfold zlen in L. lia. }
          destruct F03 as [(c0 & -> & -> & E0)|(-> & ->)], F13 as [(c1 & -> & -> & E1)|(-> & ->)];
            destruct i as [|[|]]; try lia; cbn in Hi; injection Hi as <-;
            first [now left|right; eexists; (split; [|split; [reflexivity|eassumption]]); cbn; tauto].
      + intros ci. rewrite ci in *. left. split; [easy|].
        destruct F03 as [(c0 & _ & -> & _)|(_ & ->)], F13 as [(c1 & _ & -> & _)|(_ & ->)]; reflexivity.
      + intros ci. rewrite ci in *. rewrite map_app. f_equal.
        * destruct F03 as [(c0 & -> & -> & E0)|(-> & ->)]; easy.
        * destruct F13 as [(c1 & -> & -> & E1)|(-> & ->)]; easy.
      + destruct (added_trans A0 A1) as [B1 B2 B3 B4 B5]. now constructor.
      + easy.
    - assert (D' : NoDup (labels specs) /\
         (forall v, In v (labels specs) -> exists x z, v = VIdent x /\ x <> "FALSE"%string /\ x <> "TRUE"%string /\
            value_is ds v z /\ 0 <= z < 2 ^ 32 /\ (union_complement_index cfg = true -> z < 2 ^ 31) /\
            (overflow_checks cfg = true -> z < 2 ^ 32 - 1)) /\
         (forall v w z, In v (labels specs) -> In w (labels specs) -> value_is ds v z -> value_is ds w z -> v = w)).
      { destruct t; try easy; destruct D as (D1 & D2 & D3 & _); easy. }
      assert (TT : forall {A} (a b c : A), match t with TsInt _ | TsIdent _ => a | TsBool => b | _ => c end = a).
      { intros. now destruct t. }
      rewrite TT. clear TT. destruct D' as (ND & LS & DL).
      apply wp_bind with (P := Forall2 (fun s es => match s with CaseSpec ls d =>
        Forall2 (fun v e => ev e = v /\ ed e = d /\ value_is ds v (ez e)) ls es end) specs).
      { apply wp_gmap. intros [ls d] Hs. apply wp_gmap. intros v Hv.
        assert (Hl : In v (labels specs)) by (apply in_flat_map; exists (CaseSpec ls d); easy).
        destruct (LS v Hl) as (x & z & _ & _ & _ & V & R & _). destruct (GS _ Hs) as (_ & gv & _). rewrite Forall_forall in gv.
        apply wp_bind with (P := eq z).
        - apply value_wp; try easy; [now apply gv|cbn; lia].
        - intros ? <-. cbn. easy. }
      intros es Hes. set (L := concat es).
      assert (ML : map ev L = labels specs).
      { unfold L, labels. clear - Hes. induction Hes as [|[ls d] e specs es H F IH]; [easy|]. cbn. rewrite map_app, IH. f_equal.
        clear - H. induction H as [|v e' ls es (E & _) F IH]; [easy|]. cbn. now rewrite E, IH. }
      assert (HL : forall e, In e L -> exists ls, In (CaseSpec ls (ed e)) specs /\ In (ev e) ls /\ value_is ds (ev e) (ez e)).
      { intros e He. unfold L in He. apply in_concat in He as (es' & H1 & H2).
        destruct (Forall2_in_r Hes H1) as ([ls d] & Hs & HF). destruct (Forall2_in_r HF H2) as (v & Hv & E1 & E2 & E3).
        exists ls. now rewrite E1, E2. }
      assert (HE : forall ls d v, In (CaseSpec ls d) specs -> In v ls -> exists z, In (z, d, v) L /\ value_is ds v z).
      { intros ls d v Hs Hv. destruct (Forall2_in_l Hes Hs) as (es' & H1 & HF). destruct (Forall2_in_l HF Hv) as ([[z d'] v'] & H2 & E1 & E2 & E3).
        cbn in E1, E2, E3. subst. exists z. split; [|easy]. apply in_concat. eauto. }
      assert (IL : forall e, In e L -> In (ev e) (labels specs)) by (intros e He; rewrite <- ML; now apply in_map).
      assert (GE : forall e, In e L -> good_ent e /\ label_entry specs e).
      { intros e He. destruct (HL e He) as (ls & Hs & Hv & V). destruct (LS _ (IL e He)) as (x & z & Ex & N1 & N2 & V' & R & Rc & Ro).
        pose proof (value_is_fun V V') as Ez.
        destruct (GS _ Hs) as (_ & gv & gd). rewrite Forall_forall in gv. split.
        - split; [exists x; split; [easy|]; split; [specialize (gv _ Hv); now rewrite Ex in gv|]|].
          + apply VN. unfold label_names. apply in_flat_map. exists (ev e). split; [now apply IL|]. rewrite Ex. now left.
          + split; [exact (ARS _ Hs)|]. split; [easy|]. now rewrite Ez.
        - exists ls. split; [easy|]. split; [easy|]. right. right. rewrite Ex. split; [congruence|]. split; [congruence|].
          now rewrite <- Ex. }
      assert (NL : NoDup L) by (apply NoDup_map_inv with (f := ev); now rewrite ML).
      assert (NZ : NoDup (map ez L)).
      { apply NoDup_map_in; [easy|]. intros a b Ha Hb E. apply NoDup_map_inj with (f := ev) (l := L); try easy; [now rewrite ML|].
        destruct (HL a Ha) as (_ & _ & _ & Va), (HL b Hb) as (_ & _ & _ & Vb). rewrite <- E in Vb.
        now apply DL with (ez a); [apply IL|apply IL| |]. }
      destruct (proj1 tok_total _ _ K) as [cty TC].
      change (sort_by (fun p : Z * decl * value => fst (fst p)) (concat es)) with (sort_by ez L).
      assert (W : wp (union_values cx n t 0 (sort_by ez L) no_parts) (fun p => exists cs vs, map fst cs = sort_by ez L /\
        Forall (ent_variant cty) cs /\ added t cty cs vs no_parts p /\ up_cond p = last_cond cty (up_cond no_parts) cs /\
        (union_complement_index cfg = true -> filledv 0 cs vs /\ endsv 0 cs vs) /\
        (union_complement_index cfg = false -> vs = map snd cs))).
      { apply values_wp with k; try easy.
        - intros c y l -> H. now apply (IN H).
        - apply Forall_forall. intros e He. apply sort_by_in in He. now apply GE.
        - apply sorted_climbs; [easy|]. intros e He. destruct (GE e He) as [(_ & _ & _ & R & _) _]. lia. }
      apply wp_mono with (1 := W). intros p (cs & vs & M & FV & AD & UC & FL & PL).
      exists cty, cs, vs.
      assert (HC : forall c, In c cs -> In (fst c) L).
      { intros c Hc. apply (sort_by_in ez). rewrite <- M. now apply in_map. }
      assert (HC' : forall e, In e L -> exists va, In (e, va) cs).
      { intros e He. apply (sort_by_in ez) in He. rewrite <- M in He. apply in_map_iff in He as ([e' va] & <- & H). now exists va. }
      assert (NE : cs <> []).
      { intros ->. destruct (labels specs) as [|v ls']; [easy|]. destruct L as [|e L']; [discriminate|].
        destruct (HC' e (or_introl eq_refl)) as [va []]. }
      constructor; try easy.
      + exists k. easy.
      + intros d ls v z Hs Hv Lz. destruct (HE ls d v Hs Hv) as (z' & He & V').
        assert (z = z').
        { assert (Hl : In v (labels specs)) by (apply in_flat_map; exists (CaseSpec ls d); easy).
          destruct (LS v Hl) as (x & _ & -> & N1 & N2 & _).
          destruct Lz as [[E _]|[[E _]|(_ & _ & V)]]; [congruence|congruence|]. now apply value_is_fun with (1 := V). }
        subst z'. now apply HC'.
      + intros c Hc. destruct (GE _ (HC c Hc)). easy.
      + rewrite <- (map_map fst ez), M. eapply Permutation_NoDup; [|exact NZ]. apply Permutation_map. symmetry. apply sort_by_perm.
      + now apply FL.
      + right. now apply FL.
      + rewrite UC. now destruct cs.
  Qed.

  (** the default arm *)
  Definition default_arm (cty : rty) (dflt : option decl) (dvs : list variant) : Prop :=
    match dflt with
    | None => dvs = []
    | Some d => exists tys, dvs = [Variant ANone default_id (disc_tys cty ++ tys)] /\
        (d = DVoid /\ tys = [] \/
         exists k ty, dkind cfg ds d k /\ dtok ds d ty (op_of k) /\ tys = [ty] /\
           (union_impl_union cfg = true -> k = KPlain \/ k = KDense))
    end.

  Record union_facts (t : tyspec) (specs : list cspec) (dflt : option decl) (cty : rty)
      (cs : list (ent * variant)) (vs dvs : list variant) (u : union_item) : Prop := UnionFacts
    { uf_cases : exists p, cases_facts specs t cty cs vs p;
      uf_default : default_arm cty dflt dvs;
      uf_variants : un_variants u = vs ++ dvs;
      uf_derive : un_derive u = if union_impl_indexer cfg then DvIndexer
                                else if union_impl_union cfg then DvUnion else DvSerde;
      uf_indexer : un_indexer u =
        if union_impl_indexer cfg then
          Some (IndexerImpl (map (fun c => (as_i32 (ez (fst c)), cname c)) cs)
                  (match dflt with Some _ => Some default_id | None => None end)
                  (map (fun c => (cname c, has_paren (snd c), as_i32 (ez (fst c)))) cs)
                  (match dflt with Some _ => true | None => false end))
        else None;
      uf_union : un_union u =
        if union_impl_union cfg then
          Some (UnionImpl (Some cty) (map (fun c => (pat_of t (fst c), cname c)) cs)
                  (match t with TsBool => None
                   | _ => Some (match dflt with Some _ => Some default_id | None => None end) end))
        else None;
      uf_fits : default_fits (un_default u) (un_variants u) = true;
      uf_names : NoDup (map ename (map fst cs));
      uf_compiles : item_compiles (IUnion u) }.

  Lemma in_label_names specs x : In (VIdent x) (labels specs) -> In x (label_names (labels specs)).
  Proof. intros H. apply in_flat_map. exists (VIdent x). split; [easy|now left]. Qed.

  Lemma label_entry_in specs e : label_entry specs e -> In (ev e) (labels specs).
  Proof. intros (ls & Hs & Hv & _). apply in_flat_map. exists (CaseSpec ls (ed e)). easy. Qed.

  (** names of cases *)
  Lemma case_name specs e : label_entry specs e -> good_ent e ->
    exists x, ev e = VIdent x /\ ename e = camel x /\ In x (label_names (labels specs)) /\ variant_name_ok x.
  Proof.
    intros L ((x & Ex & _ & V) & _). exists x. split; [easy|]. split; [unfold ename; now rewrite Ex|]. split; [|easy].
    apply in_label_names. rewrite <- Ex. now apply label_entry_in.
  Qed.

  Lemma case_name_inj specs t cty cs vs p c c' : cases_facts specs t cty cs vs p ->
    camel_distinct (label_names (labels specs)) -> In c cs -> In c' cs ->
    ename (fst c) = ename (fst c') -> ez (fst c) = ez (fst c').
  Proof.
    intros CF CD H H' E. destruct (cf_cases CF H) as [L g], (cf_cases CF H') as [L' g'].
    destruct (case_name L g) as (x & Ex & Nx & Ix & _), (case_name L' g') as (x' & Ex' & Nx' & Ix' & _).
    assert (x = x') by (apply (camel_inj CD); congruence). subst x'.
    destruct L as (_ & _ & _ & V), L' as (_ & _ & _ & V'). rewrite Ex in V. rewrite Ex' in V'. now apply label_fun with (1 := V).
  Qed.

  Lemma resv_default z : reserved_name z <> "Default"%string.
  Proof. exact (@reserved_not_camel z "default"). Qed.

  (** the names of the variants are distinct *)
  Definition vname (va : variant) : string := match va_name va with TokId x => x | TokNum _ => EmptyString end.

  Lemma case_variants specs t cty cs vs p : cases_facts specs t cty cs vs p ->
    camel_distinct (label_names (labels specs)) -> Forall variant_name_ok (label_names (labels specs)) ->
    (forall va, In va vs -> va_name va = TokId (vname va) /\ variant_ok (vname va) /\
       (vname va = "Default"%string -> exists x, In x (label_names (labels specs)) /\ camel x = "Default"%string)) /\
    NoDup (map vname vs) /\ (forall c, In c cs -> In (snd c) vs) /\ NoDup (map ename (map fst cs)).
  Proof.
    intros CF CD VN. rewrite Forall_forall in VN.
    pose proof (cf_variant CF) as FV. rewrite Forall_forall in FV.
    assert (CN : forall c, In c cs -> va_name (snd c) = TokId (ename (fst c)) /\ vname (snd c) = ename (fst c)).
    { intros c Hc. destruct (FV c Hc) as [E _]. unfold vname. now rewrite E. }
    assert (CV : forall c, In c cs -> va_name (snd c) = TokId (vname (snd c)) /\ variant_ok (vname (snd c)) /\
       (vname (snd c) = "Default"%string -> exists x, In x (label_names (labels specs)) /\ camel x = "Default"%string)).
    { intros c Hc. destruct (CN c Hc) as [E1 E2]. destruct (cf_cases CF Hc) as [L g]. destruct (case_name L g) as (x & _ & Nx & Ix & V).
      rewrite E2. split; [easy|]. split; [rewrite Nx; now apply variant_name|]. rewrite Nx. now exists x. }
    assert (NC : NoDup cs) by now apply NoDup_map_inv with (1 := cf_nums CF).
    assert (NE : NoDup (map ename (map fst cs))).
    { rewrite map_map. apply NoDup_map_in; [easy|]. intros a b Ha Hb E. apply NoDup_map_inj with (1 := cf_nums CF); try easy.
      now apply (case_name_inj CF CD). }
    destruct (union_complement_index cfg) eqn:ci.
    - destruct (cf_fill CF ci) as ((hi & Hhi & L) & F1 & F2).
      assert (BI : forall i va, nth_error vs i = Some va -> 0 <= 0 + Z.of_nat i < 10 ^ 20).
      { intros i va Hi. assert (N : nth_error vs i <> None) by congruence. apply nth_error_Some in N. unfold zlen in L. lia. }
      split; [|split; [|split]].
      + intros va Hv. apply In_nth_error in Hv as [i Hi]. destruct (F2 i va Hi) as [->|(c & Hc & -> & _)]; [|auto].
        split; [easy|]. split; [apply reserved_word|]. intros H. now apply resv_default in H.
      + apply NoDup_nth_error. intros i j Hi. rewrite !nth_error_map. rewrite map_length in Hi.
        destruct (nth_error vs i) as [vi|] eqn:ei; [|now apply nth_error_None in ei; lia].
        destruct (nth_error vs j) as [vj|] eqn:ej; [|discriminate]. cbn [option_map]. intros [= E].
        pose proof (BI _ _ ei). pose proof (BI _ _ ej).
        destruct (F2 i vi ei) as [->|(c & Hc & -> & Ec)], (F2 j vj ej) as [->|(c' & Hc' & -> & Ec')].
        * assert (0 + Z.of_nat i = 0 + Z.of_nat j) by (now apply reserved_inj). lia.
        * exfalso. destruct (cf_cases CF Hc') as [L' g']. destruct (case_name L' g') as (x & _ & Nx & _).
          rewrite (proj2 (CN _ Hc')), Nx in E. now apply reserved_not_camel in E.
        * exfalso. destruct (cf_cases CF Hc) as [L' g']. destruct (case_name L' g') as (x & _ & Nx & _).
          rewrite (proj2 (CN _ Hc)), Nx in E. symmetry in E. now apply reserved_not_camel in E.
        * rewrite (proj2 (CN _ Hc)), (proj2 (CN _ Hc')) in E. pose proof (case_name_inj CF CD Hc Hc' E). lia.
      + intros c Hc. apply nth_error_In with (1 := F1 c Hc).
      + easy.
    - pose proof (cf_plain CF ci) as ->. split; [|split; [|split; [|easy]]].
      + intros va Hv. apply in_map_iff in Hv as (c & <- & Hc). auto.
      + rewrite map_map in NE |- *. erewrite map_ext_in; [exact NE|]. intros c Hc. now apply CN.
      + intros c Hc. now apply in_map.
  Qed.

  Lemma names_of vs : (forall va, In va vs -> va_name va = TokId (vname va)) -> variant_names vs = map vname vs.
  Proof.
    induction vs as [|va vs IH]; intros H; [easy|]. cbn. rewrite (H va) by now left. cbn. f_equal. apply IH. intros. apply H. now right.
  Qed.

  Variables (x y : string) (c : decl) (specs : list cspec) (dflt : option decl).
  Hypothesis SU : In (x, TdUnion y (UBody c specs dflt)) (type_defs ds).
  Hypothesis SO : union_supported cfg ds (UBody c specs dflt).

  Lemma union_wp n : wp (convert_union_token cx n x (UBody c specs dflt))
    (fun u => un_name u = camel x /\ exists t nm cty cs vs dvs, c = DVariable t nm /\ union_facts t specs dflt cty cs vs dvs u).
  Proof.
    destruct SO as (ne & (t & nm & -> & D) & CD & VN & AR & DF).
    destruct (good_types G SU) as [(gx & _ & _ & gs & gd) ex]. injection ex as ex. rewrite ex in gx.
    apply good_fold in gs.
    unfold convert_union_token.
    eapply wp_bind; [apply camel_wp; [easy|now apply (IN SU)]|]. intros ? <-. cbn [gbind].
    eapply wp_bind; [exact (cases_wp n gs ne D VN AR)|].
    intros p (cty & cs & vs & CF). destruct (cf_added CF) as [A1 A2 A3 A4 A5]. cbn in A1, A2, A3, A4, A5.
    pose proof (cf_cond CF) as UC.
    destruct (case_variants CF CD VN) as (V1 & V2 & V3 & V4).
    apply wp_bind with (P := fun p' => exists dvs, default_arm cty dflt dvs /\ up_specs p' = vs ++ dvs /\
      up_names p' = up_names p /\ up_index p' = up_index p /\ up_values p' = up_values p /\ up_cond p' = up_cond p /\
      up_default p' = match dvs with [] => first_default cs | va :: _ => Some (default_id, length (va_tys va)) end).
    { unfold union_default. destruct dflt as [d|]; [|exists []; cbn; rewrite app_nil_r; easy].
      destruct DF as [DO ND]. change (cx_config cx) with cfg. rewrite UC.
      destruct DO as [->|(k & K & KU)].
      - cbn. exists [Variant ANone default_id (disc_tys cty)]. split; [exists []; rewrite app_nil_r; split; [easy|now left]|].
        cbn. rewrite A1. repeat split. unfold disc_tys. now destruct (union_impl_union cfg).
      - eapply wp_bind; [exact (proj2 (tok_wp G RM IN) _ _ K n gd)|]. intros ? (ty & op & -> & T).
        assert (O : op = op_of k) by exact (proj2 (op_kind ds cfg) _ _ K _ _ T). subst op. cbn [wp].
        exists [Variant ANone default_id (disc_tys cty ++ [ty])]. split; [exists [ty]; split; [easy|right; now exists k, ty]|].
        cbn. rewrite A1. unfold disc_tys. destruct (union_impl_union cfg); easy. }
    intros p' (dvs & DA & E1 & E2 & E3 & E4 & E5 & E6).
    assert (ED : exists dv, up_default p' = Some dv /\ default_fits dv (vs ++ dvs) = true).
    { rewrite E6. destruct dflt as [d|].
      - destruct DA as (tys & -> & _). eexists. split; [reflexivity|]. unfold default_fits. apply existsb_exists. eexists.
        split; [apply in_or_app; right; now left|]. cbn. now rewrite Nat.eqb_refl.
      - rewrite DA. pose proof (cf_nonempty CF). destruct cs as [|c0 cs0] eqn:ec; [easy|].
        eexists. split; [reflexivity|]. unfold default_fits. apply existsb_exists. exists (snd c0). split; [apply in_or_app; left; apply V3; now left|].
        pose proof (cf_variant CF) as FV. inversion FV as [|? ? [EN _] _]; subst. rewrite EN. cbn. now rewrite String.eqb_refl, Nat.eqb_refl. }
    destruct ED as (dv & ED & FD). rewrite ED. cbn [wp].
    assert (DV : forall va, In va dvs -> va_name va = TokId "Default" /\ dflt <> None).
    { intros va Hv. unfold default_arm in DA. destruct dflt as [d|]; [|now subst]. destruct DA as (tys & -> & _). destruct Hv as [<-|[]]. easy. }
    split; [easy|]. exists t, nm, cty, cs, vs, dvs. split; [easy|].
    constructor; cbn.
    - now exists p.
    - easy.
    - easy.
    - easy.
    - rewrite E2, E3, A2, A3. destruct dflt; easy.
    - rewrite E4, E5, A4, UC. destruct dflt; easy.
    - now rewrite E1.
    - easy.
    - rewrite E1, names_of.
      + split.
        * rewrite map_app. apply NoDup_app.
          -- easy.
          -- unfold default_arm in DA. destruct dflt as [d|]; [destruct DA as (tys & -> & _); repeat constructor; easy|]. rewrite DA. constructor.
          -- intros z Hz Hz'. apply in_map_iff in Hz as (va & <- & Hv). apply in_map_iff in Hz' as (va' & E & Hv').
             destruct (DV va' Hv') as [EN N]. unfold vname at 1 in E. rewrite EN in E. symmetry in E.
             destruct (V1 va Hv) as (_ & _ & V1'). destruct (V1' E) as (w & Hw & Ew).
             destruct dflt as [d|]; [|easy]. destruct DF as [_ ND]. apply (ND w Hw). apply camel_of_iff. easy.
        * rewrite map_app. apply Forall_app. split; apply Forall_forall; intros z Hz; apply in_map_iff in Hz as (va & <- & Hv).
          -- now apply V1.
          -- destruct (DV va Hv) as [EN _]. unfold vname. rewrite EN. split; [split|]; [|easy|easy]. cbn. intuition discriminate.
      + intros va Hv. apply in_app_or in Hv as [Hv|Hv]; [now apply V1|]. destruct (DV va Hv) as [EN _]. unfold vname. now rewrite EN.
  Qed.
End Union.
