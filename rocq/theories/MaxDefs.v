(** Leaving out the declared maximum sizes: the definitions stay supported, and
    describe no fewer values. *)
From Verif Require Import Base RustTypes SpecXdr Nom Ast SpecGrammar SpecParse SpecCase RustAst GenModel SpecGen GenFacts
  SpecItems SpecXdl SpecEmit SpecConv EmitProofs.
Set Implicit Arguments.
Unset Strict Implicit.
Local Open Scope list_scope.

Definition strip_spec (s : cspec) : cspec := match s with CaseSpec vs d => CaseSpec vs (without_max d) end.
Definition strip_ty (t : tyspec) : tyspec :=
  match t with
  | TsStruct l => TsStruct (map without_max l)
  | TsUnion u => TsUnion (union_without_max u)
  | _ => t
  end.

Lemma strip_labels specs : labels (map strip_spec specs) = labels specs.
Proof. unfold labels. rewrite flat_map_map. apply flat_map_ext. now intros []. Qed.

Section Max.
  Variables (cfg : config) (ds : list definition).
  Let ds' := map def_without_max ds.

  Lemma max_const_defs : const_defs ds' = const_defs ds.
  Proof. apply max_consts. Qed.
  Lemma max_member_defs : member_defs ds' = member_defs ds.
  Proof.
    unfold member_defs. unfold ds'. rewrite max_types, flat_map_map. apply flat_map_ext. intros [x t]. now destruct t.
  Qed.
  Lemma max_type_names : map fst (type_defs ds') = map fst (type_defs ds).
  Proof. unfold ds'. rewrite max_types, map_map. now apply map_ext. Qed.
  Lemma max_item_names : map fst (item_defs true ds') = map fst (item_defs true ds).
  Proof.
    unfold item_defs, ds'. rewrite max_types. generalize (type_defs ds). induction l as [|[x t] l IH]; [easy|].
    destruct t; cbn in *; congruence.
  Qed.

  Lemma first_max x t : first x (type_defs ds) t -> first x (type_defs ds') (type_without_max t).
  Proof. rewrite <- !assoc_first. unfold ds'. rewrite max_types, assoc_map_snd. now intros ->. Qed.
  Lemma first_max_back x t' : first x (type_defs ds') t' -> exists t, first x (type_defs ds) t /\ t' = type_without_max t.
  Proof.
    rewrite <- assoc_first. unfold ds'. rewrite max_types, assoc_map_snd. destruct (assoc _ x (type_defs ds)) as [t|] eqn:e; [|discriminate].
    intros [= <-]. exists t. now rewrite <- assoc_first.
  Qed.
  Lemma in_max x t' : In (x, t') (type_defs ds') -> exists t, In (x, t) (type_defs ds) /\ t' = type_without_max t.
  Proof. unfold ds'. rewrite max_types. intros H. apply in_map_iff in H as ([y t] & [= <- <-] & H). eauto. Qed.

  Lemma value_max v z : value_is ds' v z <-> value_is ds v z.
  Proof.
    split; induction 1.
    - now constructor.
    - rewrite max_const_defs in H. eapply vi_const; eauto.
    - rewrite max_const_defs in H. rewrite max_member_defs in H0. eapply vi_member; eauto.
    - now constructor.
    - eapply vi_const; eauto. now rewrite max_const_defs.
    - eapply vi_member; eauto; [now rewrite max_const_defs|now rewrite max_member_defs].
  Qed.
  Lemma label_max v z : label_is ds' v z <-> label_is ds v z.
  Proof. unfold label_is. now rewrite value_max. Qed.
  Lemma dense_max l : dense ds' l <-> dense ds l.
  Proof. unfold dense. split; intros H a z Ha V; apply (H a z Ha); now apply value_max. Qed.
  Lemma length_max v : length_ok ds v -> length_ok ds' v.
  Proof.
    unfold length_ok. intros [(z & V & R) H]. split; [exists z; now rewrite value_max|]. destruct v; [easy|]. now rewrite max_const_defs.
  Qed.

  Lemma kind_max : (forall t k, tkind cfg ds t k -> tkind cfg ds' t k) /\
    (forall d k, dkind cfg ds d k -> dkind cfg ds' (without_max d) k).
  Proof.
    apply tkind_dkind_ind; intros; try (now constructor).
    - apply first_max in H. eapply tk_enum; eauto.
    - apply first_max in H. eapply tk_std; eauto.
    - apply first_max in H. eapply tk_dense; eauto. now apply dense_max.
    - eapply tk_struct. apply first_max in H. exact H.
    - eapply tk_union. apply first_max in H. exact H.
    - eapply tk_typedef; eauto. apply first_max in H. exact H.
    - eapply tk_typedef_dense; eauto. apply first_max in H. exact H.
    - econstructor; eauto.
    - econstructor; eauto.
    - econstructor; eauto. now apply length_max.
  Qed.

  Lemma uint_max t : is_uint ds t -> is_uint ds' t.
  Proof. induction 1; [constructor|]. apply first_max in H. eapply iu_typedef; eauto. Qed.

  Lemma holds_back : (forall t y, holds ds' t y -> holds ds t y) /\
    (forall d' y, dholds ds' d' y -> forall d, d' = without_max d -> dholds ds d y).
  Proof.
    apply holds_dholds_ind.
    - intros x t F N. apply first_max_back in F as (t0 & F & ->). eapply ho_item; eauto. now destruct t0.
    - intros x d y F _ H. apply first_max_back in F as (t0 & F & Et). destruct t0; try discriminate. injection Et as Et. eapply ho_typedef; eauto.
    - intros t x y _ H d E. destruct d; try discriminate. injection E as <- <-. now constructor.
    - intros t x v y _ H d E. destruct d; try discriminate. injection E as <- <- <-. now constructor.
    - intros t x y _ H d E. destruct d; try discriminate. injection E as <- <-. now constructor.
  Qed.

  Lemma good_max : good_spec ds -> good_spec ds'.
  Proof.
    unfold good_spec, ds'. rewrite !Forall_forall. intros H d Hd. apply in_map_iff in Hd as (d0 & <- & Hd). specialize (H _ Hd).
    assert (GD : forall d, good_decl d -> good_decl (without_max d)) by (intros []; cbn; tauto).
    destruct d0 as [t| | |]; try easy. destruct t as [d|x l|x l|x [c specs dflt]]; cbn in *; auto.
    - destruct H as (g & NE & F). split; [easy|]. split; [now destruct l|]. rewrite Forall_forall in *. intros d' H'.
      apply in_map_iff in H' as (d1 & <- & H'). auto.
    - destruct H as (g & gc & NE & FC & FD). split; [easy|]. split; [easy|]. split; [now destruct specs|]. split; [|destruct dflt; cbn; auto].
      clear - FC GD. induction specs as [|[vs d] specs IH]; [easy|]. cbn in *. destruct FC as [(N & V & D) FC]. auto.
  Qed.

  Lemma well_founded_max : well_founded_names ds -> well_founded_names ds'.
  Proof.
    intros (rank & H1 & H2). exists rank. split.
    - intros x y H. apply H1. rewrite max_const_defs in H. now rewrite max_member_defs in H.
    - intros x d y H. apply in_max in H as (t & H & Et). destruct t as [d0| | |]; try discriminate. injection Et as ->.
      intros M. apply (H2 x d0 y H). now destruct d0.
  Qed.

  Lemma disc_max t ls : disc_ok cfg ds t ls -> disc_ok cfg ds' t ls.
  Proof.
    assert (V : (forall v, In v ls -> exists x z, v = VIdent x /\ x <> "FALSE"%string /\ x <> "TRUE"%string /\
         value_is ds v z /\ 0 <= z < 2 ^ 32 /\ (union_complement_index cfg = true -> z < 2 ^ 31) /\
         (overflow_checks cfg = true -> z < 2 ^ 32 - 1)) ->
       forall v, In v ls -> exists x z, v = VIdent x /\ x <> "FALSE"%string /\ x <> "TRUE"%string /\
         value_is ds' v z /\ 0 <= z < 2 ^ 32 /\ (union_complement_index cfg = true -> z < 2 ^ 31) /\
         (overflow_checks cfg = true -> z < 2 ^ 32 - 1)).
    { intros H v Hv. destruct (H v Hv) as (x & z & Q). exists x, z. now rewrite value_max. }
    assert (W : (forall v w z, In v ls -> In w ls -> value_is ds v z -> value_is ds w z -> v = w) ->
       forall v w z, In v ls -> In w ls -> value_is ds' v z -> value_is ds' w z -> v = w).
    { intros H v w z Hv Hw. rewrite !value_max. now apply H. }
    assert (K : (if union_impl_union cfg then
         is_uint ds t \/
         exists e y l, t = TsIdent e /\ first e (type_defs ds) (TdEnum y l) /\
           (enum_impl_std_trait cfg = true -> dense ds l) /\
           forall v, In v ls -> exists a, In a l /\ v = VIdent (as_name a)
       else exists k, tkind cfg ds t k) -> if union_impl_union cfg then
         is_uint ds' t \/
         exists e y l, t = TsIdent e /\ first e (type_defs ds') (TdEnum y l) /\
           (enum_impl_std_trait cfg = true -> dense ds' l) /\
           forall v, In v ls -> exists a, In a l /\ v = VIdent (as_name a)
       else exists k, tkind cfg ds' t k).
    { destruct (union_impl_union cfg).
      - intros [U|(e & y & l & -> & F & D & L)]; [left; now apply uint_max|]. right. exists e, y, l. split; [easy|]. split; [now apply first_max in F|].
        rewrite dense_max. easy.
      - intros [k Hk]. exists k. now apply (proj1 kind_max). }
    unfold disc_ok. destruct t; try easy; (intros (H1 & H2 & H3 & H4); split; [easy|]; split; [now apply V|]; split; [now apply W|now apply K]).
  Qed.

  Lemma sized_max : sized ds -> sized ds'.
  Proof.
    intros [rank H]. exists rank. intros x t' I. apply in_max in I as (t & I & ->). specialize (H x t I).
    destruct t as [d|y l|y l|y [c specs dflt]]; cbn; try easy.
    - intros d z Hd HH. apply in_map_iff in Hd as (d0 & <- & Hd). pose proof (proj2 holds_back _ _ HH _ eq_refl) as HH'.
      destruct (H d0 z Hd HH') as [M|R]; [left; now destruct d0|now right].
    - intros d z Hd HH. destruct Hd as [->|[Hd|(vs & Hd)]].
      + apply (H c z); [now left|]. apply (proj2 holds_back _ _ HH). inversion HH; reflexivity.
      + destruct dflt as [d0|]; [|discriminate]. injection Hd as ->. apply (H d0 z); [right; now left|]. now apply (proj2 holds_back _ _ HH).
      + apply in_map_iff in Hd as ([vs0 d0] & [= <- <-] & Hd). apply (H d0 z); [right; right; eauto|]. now apply (proj2 holds_back _ _ HH).
  Qed.

  Lemma supported_max : supported_defs cfg ds -> supported_defs cfg ds'.
  Proof.
    intros [A1 A2 A3 A4 A5 A6 A7 A8 A9 A10 A11]. constructor; try easy.
    - now apply good_max.
    - rewrite max_const_defs. now rewrite max_member_defs.
    - now rewrite max_type_names.
    - now rewrite max_item_names.
    - now apply well_founded_max.
    - rewrite max_const_defs. apply Forall_forall. intros c Hc. rewrite Forall_forall in A9. destruct (A9 c Hc) as [N H]. split; [easy|].
      destruct (snd c); [easy|]. rewrite max_const_defs. destruct H as (H & z & V & R). split; [easy|]. exists z. now rewrite value_max.
    - intros x t' I. apply in_max in I as (t & I & ->). specialize (A10 x t I). destruct t as [d|y l|y l|y [c specs dflt]]; cbn [type_without_max]; [easy| | |].
      + destruct A10 as (B1 & B2 & B3 & B4 & B5). split; [easy|]. split; [easy|]. split; [easy|]. split.
        * intros a Ha. destruct (B4 a Ha) as (z & V & R). exists z. now rewrite value_max.
        * intros a b z Ha Hb. rewrite !value_max. now apply B5.
      + destruct A10 as ((xs & D & SD & FN) & K). split.
        * exists xs. split; [|easy]. clear - D. induction D as [|d x l xs H D IH]; cbn; constructor; [|easy]. now rewrite max_declared.
        * rewrite Forall_forall in *. intros d Hd. apply in_map_iff in Hd as (d0 & <- & Hd). destruct (K d0 Hd) as (k & Hk & N).
          exists k. split; [now apply (proj2 kind_max)|easy].
      + cbn [union_without_max]. change (fun s : cspec => match s with CaseSpec vs d => CaseSpec vs (without_max d) end) with strip_spec.
        destruct A10 as (B1 & (t & nm & -> & DO) & B3 & B4 & B5 & B6). unfold union_supported. rewrite strip_labels.
        split; [easy|]. split; [exists t, nm; split; [easy|now apply disc_max]|]. split; [easy|]. split; [easy|]. split.
        * rewrite Forall_forall in *. intros s Hs. apply in_map_iff in Hs as ([vs d] & <- & Hs). specialize (B5 _ Hs). cbn in *.
          destruct B5 as [->|(k & Hk & N)]; [now left|]. right. exists k. split; [now apply (proj2 kind_max)|easy].
        * destruct dflt as [d|]; cbn; [|easy]. destruct B6 as [[->|(k & Hk & N)] L]; (split; [|easy]); [now left|]. right. exists k.
          split; [now apply (proj2 kind_max)|easy].
    - now apply sized_max.
  Qed.

  (** no value is lost *)
  Lemma within_max max n : within ds max n -> within ds' max n /\ within ds' None n.
  Proof.
    intros [H M]. split; (split; [easy|]); [|easy]. destruct max; [|easy]. destruct M as (m & V & L). exists m. now rewrite value_max.
  Qed.

  Lemma values_max dm :
    (forall t x, xtype ds dm t x -> xtype ds' dm t x /\ xtype ds' dm (strip_ty t) x) /\
    (forall d x, xdecl ds dm d x -> xdecl ds' dm d x /\ xdecl ds' dm (without_max d) x) /\
    (forall t xs, xall ds dm t xs -> xall ds' dm t xs) /\
    (forall l xs, xfields ds dm l xs -> xfields ds' dm l xs /\ xfields ds' dm (map without_max l) xs).
  Proof.
    apply xtype_xdecl_ind.
    1-11: intros; split; now constructor.
    - intros l a z Ha V R. split; apply xt_enum with a; try easy; now apply value_max.
    - intros l xs _ [H1 H2]. split; now constructor.
    - intros t y specs dflt d z vs v arm a _ [XD _] N H1 H2 L _ [A1 A2]. split.
      + apply xt_case with z vs v arm; try easy. now apply label_max.
      + cbn. apply xt_case with z vs v (without_max arm); try easy; [|now apply label_max]. apply in_map_iff. now exists (CaseSpec vs arm).
    - intros t y specs d z arm a DM _ [XD _] N L _ [A1 A2]. split.
      + apply xt_default with z; try easy. intros v Hv. rewrite label_max. now apply L.
      + cbn. apply xt_default with z; try easy. change (fun s : cspec => match s with CaseSpec vs d => CaseSpec vs (without_max d) end) with strip_spec.
        rewrite strip_labels. intros v Hv. rewrite label_max. now apply L.
    - intros n d x F _ [H1 H2]. apply first_max in F. split; now apply xt_typedef with (without_max d).
    - intros n y l x F _ [H1 H2]. apply first_max in F. split; now apply xt_name_enum with y l.
    - intros n y l x F _ [H1 H2]. apply first_max in F. split; now apply xt_name_struct with y (map without_max l).
    - intros n y u x F _ [H1 H2]. apply first_max in F. split; now apply xt_name_union with y (union_without_max u).
    - intros t y x _ [H _]. split; now constructor.
    - intros t y v xs V _ H. split; constructor; try easy; now apply value_max.
    - intros t y max xs W _ H. apply within_max in W as [W1 W2]. split; now constructor.
    - intros y v bs V. split; constructor; now apply value_max.
    - intros y max bs W. apply within_max in W as [W1 W2]. split; now constructor.
    - intros y max bs U W. apply within_max in W as [W1 W2]. split; now constructor.
    - split; constructor.
    - intros t y x _ [H _]. split; now constructor.
    - split; constructor.
    - constructor.
    - intros t x xs _ [H _] _ HS. now constructor.
    - split; constructor.
    - intros d l x xs _ [H1 H2] _ [H3 H4]. split; now constructor.
  Qed.

  Lemma exact_max : exact_defs cfg ds -> exact_defs cfg ds'.
  Proof.
    intros H x t' I. apply in_max in I as (t & I & ->). specialize (H x t I). destruct t as [d|y l|y l|y [c specs dflt]]; cbn; try easy.
    - intros M. apply dense_max. now apply H.
    - change (fun s : cspec => match s with CaseSpec vs d => CaseSpec vs (without_max d) end) with strip_spec. rewrite !strip_labels.
      destruct H as (H1 & H2 & H3). split; [|split].
      + intros t nm v z -> Hv L. apply label_max in L. destruct (H1 t nm v z eq_refl Hv L) as (d & X & N). exists d. split; [|easy].
        now apply (proj1 (values_max _)).
      + intros M. now rewrite (H2 M).
      + intros M. destruct (H3 M) as [B1 B2]. split; [|easy]. intros v z Hv L. apply label_max in L. now apply B1 with v.
  Qed.

  Lemma max_idem : map def_without_max ds' = ds'.
  Proof.
    unfold ds'. rewrite map_map. apply map_ext. intros [t| | |]; try easy.
    assert (D : forall d, without_max (without_max d) = without_max d) by (now intros []).
    destruct t as [d|y l|y l|y [c specs dflt]]; cbn; rewrite ?D; try easy.
    - rewrite map_map. now rewrite (map_ext _ _ D).
    - rewrite map_map. do 3 f_equal; [apply map_ext; intros []; now rewrite D|]. destruct dflt; cbn; now rewrite ?D.
  Qed.
End Max.
