(** Every file that gen_code returns can be written down: its names are
    identifiers, its numbers are below 10^20, and the names in its impls are
    those of its definitions. *)
From Verif Require Import Base RustTypes SpecCase Nom NomFacts Ast ParserModel CaseModel CaseProofs RustAst GenModel SpecGen GenSem
  EmitNorm RustText SpecRust SpecSyntax TextLex.
Set Implicit Arguments.
Unset Strict Implicit.
Local Open Scope string_scope.
Local Open Scope list_scope.

(** ** Results *)
Definition okp {A} (r : gres A) (Q : A -> Prop) : Prop := match r with GOk a => Q a | _ => True end.
Lemma okp_ok {A} (r : gres A) (Q : A -> Prop) a : okp r Q -> r = GOk a -> Q a.
Proof. now intros H ->. Qed.
Lemma okp_mono {A} (r : gres A) (P Q : A -> Prop) : okp r P -> (forall a, P a -> Q a) -> okp r Q.
Proof. destruct r; cbn; auto. Qed.
Lemma okp_bind {A B} (r : gres A) (f : A -> gres B) P Q : okp r P -> (forall a, P a -> okp (f a) Q) -> okp (gbind r f) Q.
Proof. destruct r; cbn; auto. Qed.
Lemma okp_gmap {A B} (f : A -> gres B) l (P : B -> Prop) : (forall a, In a l -> okp (f a) P) -> okp (gmap f l) (Forall P).
Proof.
  induction l as [|a l IH]; intros H; cbn [gmap]; [constructor|]. apply okp_bind with P; [apply H; now left|]. intros b Hb.
  apply okp_bind with (Forall P); [apply IH; intros; apply H; now right|]. intros bs Hbs. cbn. now constructor.
Qed.
Lemma okp_gmap2 {A B} (f : A -> gres B) l (P : A -> B -> Prop) : (forall a, In a l -> okp (f a) (P a)) -> okp (gmap f l) (Forall2 P l).
Proof.
  induction l as [|a l IH]; intros H; cbn [gmap]; [constructor|]. apply okp_bind with (P a); [apply H; now left|]. intros b Hb.
  apply okp_bind with (Forall2 P l); [apply IH; intros; apply H; now right|]. intros bs Hbs. cbn. now constructor.
Qed.
Lemma okp_any {A} (r : gres A) : okp r (fun _ => True).
Proof. now destruct r. Qed.

(** ** Names and numbers *)
Definition ident (x : string) : Prop := ident_text (chars x) = true.
Definition small (z : Z) : Prop := (Z.abs z < 10 ^ 20)%Z.
Definition rid_ok (i : rident) : Prop :=
  match i with Id x => ident x | RawId x => ident x /\ existsb (String.eqb x) raw_refused = false end.
Definition tok_ok (v : vtoken) : Prop := match v with TokNum z => small z | TokId x => ident x end.

Lemma chars_str t : chars (str t) = t.
Proof. apply list_ascii_of_string_of_list_ascii. Qed.
Lemma ident_new_ok t : okp (ident_new t) ident.
Proof. unfold ident_new. destruct (ident_text t) eqn:E; cbn; [|easy]. unfold ident. now rewrite chars_str. Qed.
Lemma camel_ok x : okp (upper_camel_case_ident x) ident.
Proof. apply ident_new_ok. Qed.
Lemma reserved_ok z : okp (reserved z) ident.
Proof. apply ident_new_ok. Qed.
Lemma snake_ok x : okp (snake_case_ident x) rid_ok.
Proof.
  unfold snake_case_ident, format_ident. destruct (strip _ _) as [t|].
  - unfold ident_new_raw. destruct (ident_text t) eqn:E; [|easy]. destruct (existsb _ _) eqn:R; [easy|]. cbn. split; [|exact R].
    unfold ident. now rewrite chars_str.
  - apply okp_bind with ident; [apply ident_new_ok|easy].
Qed.
Lemma constant_ok k c : okp (constant_value k c) (fun z => kind_min k <= z <= kind_max k)%Z.
Proof. unfold constant_value. destruct c; destruct (from_str_radix _ _ _) eqn:E; cbn; try easy; exact (radix_range E). Qed.
Lemma kind_small k z : (kind_min k <= z <= kind_max k)%Z -> small z.
Proof. unfold small. destruct k; cbn [kind_min kind_max]; lia. Qed.

Section Cx.
  Variable cx : context.
  Lemma value_ok n k v : okp (resolve_value cx n k v) (fun z => kind_min k <= z <= kind_max k)%Z.
  Proof. destruct (resolve_value cx n k v) eqn:E; cbn; try easy. exact (value_range E). Qed.
  Lemma token_ok k cnv v : okp (convert_value_token k cnv v) tok_ok.
  Proof.
    destruct v as [c|i]; cbn [convert_value_token]; cycle 1.
    - apply okp_bind with ident; [destruct cnv; [apply camel_ok|apply ident_new_ok]|easy].
    - apply okp_bind with small; [|easy]. eapply okp_mono; [apply constant_ok|]. intros z. apply kind_small.
  Qed.

  Lemma const_made c : okp (constant_token c) (fun c => ident (co_name c) /\ tok_ok (co_value c)).
  Proof.
    destruct c as [x v]. cbn [constant_token]. apply okp_bind with ident; [apply ident_new_ok|]. intros y Y.
    pose proof (token_ok KU32 false v) as H. destruct (convert_value_token KU32 false v) as [t| | |]; try easy.
    apply okp_bind with tok_ok; [apply token_ok|easy].
  Qed.

  (** ** Types *)
  Fixpoint ty_ok (t : rty) : Prop :=
    match t with
    | YName x => ident x
    | YArray t len _ => ty_ok t /\ tok_ok len
    | YVec t | YOption t | YBox t => ty_ok t
    | _ => True
    end.
  Definition typed (r : rty * opaque_type) : Prop := ty_ok (fst r).
  Lemma primitive_ok (rt : string -> gres (rty * opaque_type)) t : (forall x, okp (rt x) typed) -> okp (convert_primitive_token rt t) typed.
  Proof. intros H. destruct t; cbn [convert_primitive_token]; try exact Logic.I; try apply H. Qed.
  Definition typed_opt (r : option (rty * opaque_type)) : Prop := match r with Some r => typed r | None => True end.
  Lemma convert_ok (rt : string -> gres (rty * opaque_type)) d : (forall x, okp (rt x) typed) -> okp (convert_type_token rt d) typed_opt.
  Proof.
    intros H. destruct d; cbn [convert_type_token]; try exact Logic.I.
    - apply okp_bind with typed; [now apply primitive_ok|easy].
    - apply okp_bind with typed; [now apply primitive_ok|]. intros [ty op] T. apply okp_bind with tok_ok; [apply token_ok|]. easy.
    - apply okp_bind with typed; [now apply primitive_ok|]. intros [ty op] T. now destruct op.
    - apply okp_bind with tok_ok; [apply token_ok|]. easy.
    - apply okp_bind with typed; [now apply primitive_ok|]. now intros [ty op] T.
  Qed.
  Lemma required_ok o : typed_opt o -> okp (required o) typed.
  Proof. now destruct o. Qed.
  Lemma type_token_ok n : forall x, okp (resolve_type_token cx n x) typed.
  Proof.
    induction n as [|n IH]; intros x; [easy|]. cbn [resolve_type_token].
    assert (N : okp (gbind (upper_camel_case_ident x) (fun y => GOk (YName y, OpNone))) typed)
      by (apply okp_bind with ident; [apply camel_ok|easy]).
    destruct (remove_typedef _); [|exact N]. destruct (assoc _ _ _) as [[d| | |]|]; try exact N.
    apply okp_bind with typed_opt; [now apply convert_ok|]. intros o. apply required_ok.
  Qed.

  (** ** Items *)
  Definition small_arm {A} (p : Z * A) : Prop := small (fst p).
  Definition enum_made (e : enum_item) : Prop :=
    ident (en_name e) /\ Forall (fun p => ident (fst p) /\ small (snd p)) (en_values e) /\ In (en_default e) (enum_names e) /\
    if_some (Forall (fun p => In (fst p) (enum_names e) /\ small (snd p))) (en_as_ref e) /\
    if_some (fun l => l <> [] /\ Forall (fun p => In (snd p) (enum_names e) /\ small (fst p)) l) (en_try_from e) /\
    if_some (fun ix => Forall (fun p => small (fst p) /\ In (snd p) (map TokId (enum_names e))) (ix_names ix) /\
                       if_some (fun v => In v (map TokId (enum_names e))) (ix_other ix) /\
                       Forall (fun p => small (snd p) /\ In (fst (fst p)) (map TokId (enum_names e))) (ix_index ix)) (en_indexer e).

  Definition i32 (z : Z) : Prop := (- 2 ^ 31 <= z < 2 ^ 31)%Z.
  Lemma zrange_in a b z : In z (zrange a b) -> (a <= z < b)%Z.
  Proof. unfold zrange. intros H. apply in_map_iff in H as (k & <- & H). apply in_seq in H. lia. Qed.
  Lemma enum_values_ok l : forall start, i32 start -> Forall (fun p => i32 (fst p)) l ->
    okp (enum_values cx start l) (fun vs => Forall (fun p => ident (fst p) /\ small (snd p)) vs /\
      Forall (fun p => forall y, upper_camel_case_ident (snd p) = GOk y -> In y (map fst vs)) l).
  Proof.
    induction l as [|[e x] l IH]; intros start S F; cbn [enum_values]; [now split|]. inversion F as [|? ? F1 F2]; subst. cbn [fst] in F1.
    apply okp_bind with (Forall (fun p => ident (fst p) /\ small (snd p))).
    { destruct (enum_complement_index _); [|constructor]. apply okp_gmap. intros z Hz. apply zrange_in in Hz.
      apply okp_bind with ident; [apply reserved_ok|]. intros r R. split; [exact R|]. unfold small, i32 in *. cbn [fst snd]. lia. }
    intros fill HF. pose proof (camel_ok x) as HC. destruct (upper_camel_case_ident x) as [y| | |] eqn:Ex; cbn [gbind okp] in *; try exact Logic.I.
    apply okp_bind with i32.
    { unfold succ_checked. unfold i32 in *. destruct (Z.ltb_spec e (2 ^ 31 - 1)); [cbn; lia|]. destruct (overflow_checks _); cbn; [exact Logic.I|lia]. }
    intros st HS. eapply okp_bind; [now apply IH|]. intros vs [V1 V2]. cbn. split.
    - apply Forall_app. split; [exact HF|]. constructor; [|exact V1]. split; [exact HC|]. unfold small, i32 in *. cbn [fst snd]. lia.
    - constructor.
      + intros z. cbn [snd]. rewrite Ex. intros [= <-]. rewrite map_app. apply in_or_app. right. now left.
      + eapply Forall_impl; [|exact V2]. intros p Hp z Hz. rewrite map_app. apply in_or_app. right. right. now apply Hp.
  Qed.

  Lemma sort_forall {A} (P : A -> Prop) key l : Forall P l -> Forall P (sort_by key l).
  Proof.
    assert (I : forall a l, P a -> Forall P l -> Forall P (insert_by key a l)).
    { intros a m Pa. induction 1 as [|b m Pb F IH]; cbn [insert_by]; [now constructor|]. destruct (Z.leb _ _); now repeat constructor. }
    induction 1 as [|a l Pa F IH]; [constructor|]. cbn. now apply I.
  Qed.
  Lemma forall_map {A B} (g : A -> B) (P : B -> Prop) l : Forall (fun a => P (g a)) l -> Forall P (map g l).
  Proof. induction 1; constructor; auto. Qed.

  Lemma gen_enum_ok n x l : okp (convert_enum_token cx n x l) enum_made.
  Proof.
    unfold convert_enum_token. apply okp_bind with (Forall (fun p => i32 (fst p))).
    { apply okp_gmap. intros a _. eapply okp_bind; [apply value_ok|]. intros z Hz. unfold i32. cbn [kind_min kind_max okp fst] in *. lia. }
    intros ix0 H0. set (ix := sort_by fst ix0). assert (H : Forall (fun p : Z * string => i32 (fst p)) ix) by now apply sort_forall.
    clearbody ix. clear ix0 H0. apply okp_bind with ident; [apply camel_ok|]. intros nm HN.
    eapply okp_bind; [apply enum_values_ok; [unfold i32; lia|exact H]|]. intros vs [V1 V2].
    apply okp_bind with (Forall (fun p => In (fst p) (map fst vs) /\ small (snd p))).
    { apply okp_gmap. intros p Hp. rewrite Forall_forall in V2, H. specialize (V2 p Hp). specialize (H p Hp).
      destruct (upper_camel_case_ident (snd p)) as [y| | |]; cbn; try exact Logic.I. split; [now apply V2|]. unfold i32, small in *. lia. }
    intros items HI. destruct items as [|[dflt z0] items']; [easy|].
    set (items := (dflt, z0) :: items') in *. assert (D : In dflt (map fst vs)) by (inversion HI; subst; tauto).
    assert (NE : map (fun p => (snd p, fst p)) items <> []) by discriminate. clearbody items. clear items'.
    cbn [okp]. unfold enum_made. cbn [en_name en_values en_default en_as_ref en_try_from en_indexer]. unfold enum_names. cbn [en_values].
    assert (SW : Forall (fun p => In (snd p) (map fst vs) /\ small (fst p)) (map (fun p => (snd p, fst p)) items)) by now apply forall_map.
    repeat split; auto.
    - destruct (enum_impl_std_trait _); [exact HI|exact Logic.I].
    - destruct (enum_impl_std_trait _); [now split|exact Logic.I].
    - destruct (enum_impl_indexer _); [|exact Logic.I]. cbn [if_some ix_names ix_other ix_index]. repeat split.
      + apply forall_map. eapply Forall_impl; [|exact SW]. intros p [A B]. cbn [fst snd]. split; [exact B|now apply in_map].
      + now apply in_map.
      + apply forall_map. eapply Forall_impl; [|exact HI]. intros p [A B]. cbn [fst snd]. split; [exact B|now apply in_map].
  Qed.

  Definition struct_made (s : struct_item) : Prop :=
    ident (st_name s) /\ Forall (fun fd => rid_ok (fd_name fd) /\ ty_ok (fd_ty fd)) (st_fields s).
  Lemma gen_struct_field_ok n x d : okp (struct_field cx n x d) (fun fd => rid_ok (fd_name fd) /\ ty_ok (fd_ty fd)).
  Proof.
    unfold struct_field. destruct (decl_name d) as [fn|]; [|easy]. apply okp_bind with typed_opt; [apply convert_ok, type_token_ok|].
    intros o O. apply okp_bind with typed; [now apply required_ok|]. intros [ty op] T. apply okp_bind with rid_ok; [apply snake_ok|].
    intros i I. cbn [okp fd_name fd_ty]. split; [exact I|]. now destruct (tyspec_is _ _).
  Qed.
  Lemma gen_struct_ok n x l : okp (convert_struct_token cx n x l) struct_made.
  Proof.
    unfold convert_struct_token. eapply okp_bind; [apply okp_gmap; intros a _; apply gen_struct_field_ok|]. intros fs F.
    apply okp_bind with ident; [apply camel_ok|]. now intros y Y.
  Qed.

  Definition var_ok (v : variant) : Prop := tok_ok (va_name v) /\ Forall ty_ok (va_tys v).
  Definition gen_pat_ok (p : pat) : Prop :=
    match p with PtBool _ => True | PtNum z => small z | PtPath t x => ident t /\ ident x end.
  Definition case_ok (ct : case_token) : Prop :=
    var_ok (ct_variant ct) /\ va_name (ct_variant ct) = ct_name ct /\ ty_ok (ct_cond ct).
  Lemma cond_ok n cond : okp match convert_primitive_token (resolve_type_token cx n) cond with
                   | GErr _ => match cond with
                               | TsIdent c => x <~ upper_camel_case_ident c;; GOk (YName x)
                               | _ => GPanic
                               end
                   | r => '(ty, _) <~ r;; GOk ty
                   end ty_ok.
  Proof.
    assert (P := @primitive_ok (resolve_type_token cx n) cond (type_token_ok n)).
    destruct (convert_primitive_token _ _) as [[ty op]|e| |]; try easy.
    destruct cond; try easy. apply okp_bind with ident; [apply camel_ok|easy].
  Qed.
  Lemma case_token_ok n v d cond : okp (convert_case_token cx n v d cond) case_ok.
  Proof.
    unfold convert_case_token. apply okp_bind with tok_ok; [apply token_ok|]. intros nm N.
    apply okp_bind with ty_ok; [apply cond_ok|]. intros ct C. apply okp_bind with typed_opt; [apply convert_ok, type_token_ok|].
    intros [[ty op]|] O; cbn [okp].
    - cbn in O. assert (T : ty_ok (if match op with OpNone => false | _ => negb (union_complement_index (cx_config cx)) end then YVarArray else ty))
        by (destruct op; [exact O|destruct (union_complement_index _); easy..]).
      destruct (union_impl_union _); (split; [|split; [reflexivity|exact C]]); (split; [exact N|]); cbn [ct_variant va_tys]; auto.
    - destruct (union_impl_union _); (split; [|split; [reflexivity|exact C]]); (split; [exact N|]); cbn [ct_variant va_tys]; auto.
  Qed.

  Definition va_names (vs : list variant) : list vtoken := map va_name vs.
  Definition names_arms (vs : list variant) (l : list (Z * vtoken)) : Prop :=
    Forall (fun p => small (fst p) /\ In (snd p) (va_names vs)) l.
  Definition index_arms (vs : list variant) (l : list (vtoken * bool * Z)) : Prop :=
    Forall (fun p => small (snd p) /\ In (fst (fst p)) (va_names vs)) l.
  Definition value_arms (vs : list variant) (l : list (pat * vtoken)) : Prop :=
    Forall (fun p => gen_pat_ok (fst p) /\ In (snd p) (va_names vs)) l.
  Definition parts_ok (p : union_parts) : Prop :=
    Forall var_ok (up_specs p) /\ names_arms (up_specs p) (up_names p) /\ index_arms (up_specs p) (up_index p) /\
    value_arms (up_specs p) (up_values p) /\ if_some (fun d => In (fst d) (va_names (up_specs p))) (up_default p) /\
    if_some ty_ok (up_cond p).
  Lemma in_more a b x : In x (va_names a) -> In x (va_names (a ++ b)).
  Proof. unfold va_names. rewrite map_app. intros. apply in_or_app. now left. Qed.
  Lemma parts_more p more names index values dflt cond : parts_ok p -> Forall var_ok more ->
    names_arms more names -> index_arms more index -> value_arms more values ->
    if_some (fun d => In (fst d) (va_names (up_specs p ++ more))) dflt -> if_some ty_ok cond ->
    parts_ok (UnionParts (up_specs p ++ more) (up_names p ++ names) (up_index p ++ index) (up_values p ++ values) dflt cond).
  Proof.
    intros (A & B & C & D & E & G) V N I W Df Co.
    assert (R : forall x, In x (va_names more) -> In x (va_names (up_specs p ++ more))).
    { intros x Hx. unfold va_names. rewrite map_app. apply in_or_app. now right. }
    repeat split; cbn [up_specs up_names up_index up_values up_default up_cond]; auto.
    - now apply Forall_app.
    - apply Forall_app. split; (eapply Forall_impl; [|eassumption]); intros q [Q1 Q2]; split; auto using in_more.
    - apply Forall_app. split; (eapply Forall_impl; [|eassumption]); intros q [Q1 Q2]; split; auto using in_more.
    - apply Forall_app. split; (eapply Forall_impl; [|eassumption]); intros q [Q1 Q2]; split; auto using in_more.
  Qed.
  Lemma no_parts_ok : parts_ok no_parts.
  Proof. repeat split; cbn; constructor. Qed.
  Lemma reserved_variant_ok z : okp (reserved_variant z) var_ok.
  Proof. unfold reserved_variant. apply okp_bind with ident; [apply reserved_ok|]. intros r R. split; [exact R|constructor]. Qed.
  Definition u32 (z : Z) : Prop := (0 <= z < 2 ^ 32)%Z.

  Lemma in_last (a b : list variant) v : In (va_name v) (va_names (a ++ b ++ [v])).
  Proof. unfold va_names. rewrite !map_app. apply in_or_app. right. apply in_or_app. right. now left. Qed.
  Lemma in_last1 (b : list variant) v : In (va_name v) (va_names (b ++ [v])).
  Proof. unfold va_names. rewrite !map_app. apply in_or_app. right. now left. Qed.
  Lemma opt_first_in p more ct k : parts_ok p -> In (ct_name ct) (va_names (up_specs p ++ more)) ->
    if_some (fun d => In (fst d) (va_names (up_specs p ++ more))) (opt_first (up_default p) (Some (ct_name ct, k))).
  Proof. intros (_ & _ & _ & _ & D & _) H. destruct (up_default p) as [d|]; cbn in *; [now apply in_more|exact H]. Qed.

  Lemma union_values_ok n cond l : forall s acc, parts_ok acc -> Forall (fun p => u32 (fst (fst p))) l -> okp (union_values cx n cond s l acc) parts_ok.
  Proof.
    induction l as [|[[e d] v] l IH]; intros s acc P F; cbn [union_values]; [exact P|]. inversion F as [|? ? F1 F2]; subst. cbn [fst] in F1.
    apply okp_bind with (Forall var_ok).
    { destruct (union_complement_index _); [|constructor]. apply okp_gmap. intros z _. apply reserved_variant_ok. }
    intros fill HF. apply okp_bind with case_ok; [apply case_token_ok|]. intros ct (C1 & C2 & C3).
    apply okp_bind with (Forall (fun p => gen_pat_ok (fst p) /\ snd p = ct_name ct)).
    { assert (NUM : Forall (fun p => gen_pat_ok (fst p) /\ snd p = ct_name ct) [(PtNum e, ct_name ct)]).
      { constructor; [|constructor]. split; [|reflexivity]. unfold u32 in F1. unfold gen_pat_ok, small. cbn [fst snd]. lia. }
      destruct (is_enum_type _ _); [|exact NUM]. destruct cond; try exact (Forall_nil _).
      apply okp_bind with ident; [apply camel_ok|]. intros y Y. destruct v; [exact (Forall_nil _)|].
      apply okp_bind with ident; [apply camel_ok|]. intros z Z. cbn. constructor; [|constructor]. now repeat split. }
    intros bv BV. eapply okp_bind; [apply okp_any|]. intros s' _. apply IH; [|exact F2].
    assert (L : In (ct_name ct) (va_names (fill ++ [ct_variant ct]))) by (rewrite <- C2; apply in_last1).
    assert (Sm : small (as_i32 e)) by (unfold u32 in F1; unfold small, as_i32; destruct (Z.ltb_spec e (2 ^ 31)); lia).
    apply parts_more; auto.
    - apply Forall_app. split; [exact HF|now constructor].
    - constructor; [now split|constructor].
    - constructor; [now split|constructor].
    - eapply Forall_impl; [|exact BV]. intros p [Q1 Q2]. split; [exact Q1|]. now rewrite Q2.
    - apply opt_first_in; [exact P|]. unfold va_names in *. rewrite map_app. apply in_or_app. now right.
  Qed.

  Lemma bool_case_ok n cond b specs acc : parts_ok acc -> okp (bool_case cx n cond b specs acc) parts_ok.
  Proof.
    intros P. unfold bool_case. destruct (find _ specs) as [[vs d]|].
    - destruct (find _ vs) as [v|]; [|easy]. apply okp_bind with case_ok; [apply case_token_ok|]. intros ct (C1 & C2 & C3). cbn [okp].
      assert (L : In (ct_name ct) (va_names [ct_variant ct])) by (rewrite <- C2; now left).
      assert (Sm : small (if b then 1 else 0)) by (unfold small; destruct b; lia).
      apply parts_more; [exact P|now constructor| | | | |].
      + constructor; [now split|constructor].
      + constructor; [now split|constructor].
      + constructor; [now split|constructor].
      + apply opt_first_in; [exact P|]. unfold va_names in *. rewrite map_app. apply in_or_app. now right.
      + apply P.
    - destruct (union_complement_index _); [|exact P]. apply okp_bind with var_ok; [apply reserved_variant_ok|]. intros r R. cbn [okp].
      replace (UnionParts _ _ _ _ _ _) with (UnionParts (up_specs acc ++ [r]) (up_names acc ++ []) (up_index acc ++ []) (up_values acc ++ []) (up_default acc) (up_cond acc))
        by now rewrite !app_nil_r.
      apply parts_more; auto; try exact (Forall_nil _).
      + destruct P as (_ & _ & _ & _ & D & _). destruct (up_default acc); cbn in *; [now apply in_more|easy].
      + apply P.
  Qed.

  Lemma union_default_ok n dd acc : parts_ok acc ->
    okp (union_default cx n dd acc) (fun p => parts_ok p /\ (dd <> None -> In default_id (va_names (up_specs p)))).
  Proof.
    intros P. unfold union_default. destruct dd as [d|]; [|now split]. apply okp_bind with typed_opt; [apply convert_ok, type_token_ok|].
    intros t T. cbn [okp up_specs]. split.
    - replace (UnionParts _ _ _ _ _ _) with (UnionParts (up_specs acc ++ [Variant ANone default_id
          (if union_impl_union (cx_config cx) then (match up_cond acc with Some c => [c] | None => [] end ++ match t with Some (ty, _) => [ty] | None => [] end)
           else match t with Some (ty, _) => [ty] | None => [] end)]) (up_names acc ++ []) (up_index acc ++ []) (up_values acc ++ [])
          (Some (default_id, (length (match t with Some (ty, _) => [ty] | None => [] end) + (if union_impl_union (cx_config cx) then 1 else 0))%nat)) (up_cond acc))
        by now rewrite !app_nil_r.
      apply parts_more; auto; try exact (Forall_nil _).
      + constructor; [|constructor]. split; [reflexivity|]. cbn [va_tys].
        assert (C : Forall ty_ok (match up_cond acc with Some c => [c] | None => [] end)) by (destruct P as (_ & _ & _ & _ & _ & C); destruct (up_cond acc); auto).
        assert (Y : Forall ty_ok (match t with Some (ty, _) => [ty] | None => [] end)) by (destruct t as [[ty op]|]; auto).
        destruct (union_impl_union _); [now apply Forall_app|exact Y].
      + cbn. unfold va_names. rewrite map_app. apply in_or_app. right. now left.
      + apply P.
    - intros _. unfold va_names. rewrite map_app. apply in_or_app. right. now left.
  Qed.

  Definition union_made (u : union_item) : Prop :=
    ident (un_name u) /\ Forall var_ok (un_variants u) /\ In (fst (un_default u)) (va_names (un_variants u)) /\
    if_some (fun ix => names_arms (un_variants u) (ix_names ix) /\ if_some (fun v => In v (va_names (un_variants u))) (ix_other ix) /\
                       index_arms (un_variants u) (ix_index ix)) (un_indexer u) /\
    if_some (fun ui => if_some ty_ok (ui_disc ui) /\ value_arms (un_variants u) (ui_names ui) /\
                       if_some (if_some (fun v => In v (va_names (un_variants u)))) (ui_other ui)) (un_union u).
  Lemma gen_union_ok n x b : okp (convert_union_token cx n x b) union_made.
  Proof.
    destruct b as [cond specs dflt]. cbn [convert_union_token]. apply okp_bind with ident; [apply camel_ok|]. intros nm N.
    eapply okp_bind; [apply okp_any|]. intros c _.
    assert (VALS : okp (values <~ gmap (fun s => match s with CaseSpec vs d =>
                                  gmap (fun v => z <~ resolve_value cx n KU32 v;; GOk (z, d, v)) vs end) specs;;
                union_values cx n c 0 (sort_by (fun p => fst (fst p)) (concat values)) no_parts) parts_ok).
    { apply okp_bind with (Forall (Forall (fun p : Z * decl * value => u32 (fst (fst p))))).
      { apply okp_gmap. intros [vs d] _. apply okp_gmap. intros v _. eapply okp_bind; [apply value_ok|].
        intros z Hz. unfold u32. cbn [kind_min kind_max okp fst] in *. lia. }
      intros vals HV. apply union_values_ok; [apply no_parts_ok|]. apply sort_forall. now apply Forall_concat. }
    apply okp_bind with parts_ok.
    { destruct c; try easy; try exact VALS. eapply okp_bind; [apply bool_case_ok, no_parts_ok|]. intros p P.
      eapply okp_bind; [apply bool_case_ok, P|]. intros q (Q1 & Q2 & Q3 & Q4 & Q5 & Q6). cbn [okp]. now repeat split. }
    clear VALS. intros p0 P0. eapply okp_bind; [now apply union_default_ok|]. intros p (P & D).
    destruct P as (P1 & P2 & P3 & P4 & P5 & P6). destruct (up_default p) as [dv|]; [|easy].
    cbn [okp]. unfold union_made. cbn [un_name un_variants un_default un_indexer un_union].
    assert (O : if_some (fun v => In v (va_names (up_specs p))) (if match dflt with Some _ => true | None => false end then Some default_id else None)).
    { destruct dflt; [|exact Logic.I]. now apply D. }
    repeat split; auto.
    - destruct (union_impl_indexer _); [|exact Logic.I]. now repeat split.
    - destruct (union_impl_union _); [|exact Logic.I]. repeat split; cbn [ui_disc ui_names ui_other]; auto. destruct c; exact O || exact Logic.I.
  Qed.

  Definition made (i : type_item) : Prop :=
    match i with
    | IAlias x t => ident x /\ ty_ok t
    | IEnum e => enum_made e
    | IStruct s => struct_made s
    | IUnion u => union_made u
    end.
  Lemma types_made n : okp (types_token cx n) (Forall made).
  Proof.
    unfold types_token. apply okp_bind with (Forall (Forall made)); [|intros l H; now apply Forall_concat].
    apply okp_gmap. intros [x [d|y l|y l|y b]] _; cbn [type_token_of].
    - destruct (remove_typedef _); [exact (Forall_nil _)|]. apply okp_bind with typed_opt; [apply convert_ok, type_token_ok|].
      intros o O. apply okp_bind with typed; [now apply required_ok|]. intros [ty op] T. destruct op; try easy.
      apply okp_bind with ident; [apply camel_ok|]. intros z Z. cbn. constructor; [now split|constructor].
    - apply okp_bind with enum_made; [apply gen_enum_ok|]. intros e H. cbn. now constructor.
    - apply okp_bind with struct_made; [apply gen_struct_ok|]. intros e H. cbn. now constructor.
    - apply okp_bind with union_made; [apply gen_union_ok|]. intros e H. cbn. now constructor.
  Qed.

  Lemma camel_us x : okp (upper_camel_case_ident x) (fun y => y <> "_").
  Proof.
    unfold upper_camel_case_ident, ident_new. destruct (ident_text _); [|exact Logic.I]. cbn. intros E.
    pose proof (camel_no_us (chars x)) as H. replace (upper_camel_case (chars x)) with (chars "_") in H; [discriminate H|].
    now rewrite <- E, chars_str.
  Qed.
  Ltac skip := eapply okp_bind; [apply okp_any|intros ? _].
  Lemma names_made n : okp (types_token cx n) (Forall (fun i => item_name i <> "_")).
  Proof.
    unfold types_token. apply okp_bind with (Forall (Forall (fun i => item_name i <> "_"))); [|intros l H; now apply Forall_concat].
    apply okp_gmap. intros [x [d|y l|y l|y b]] _; cbn [type_token_of].
    - destruct (remove_typedef _); [exact (Forall_nil _)|]. skip. skip. destruct a0 as [ty []]; try exact Logic.I.
      eapply okp_bind; [apply camel_us|]. intros z Z. cbn. now repeat constructor.
    - apply okp_bind with (fun e => en_name e <> "_"); [|intros e H; cbn; now repeat constructor].
      unfold convert_enum_token. skip. eapply okp_bind; [apply camel_us|]. intros z Z. skip. skip. now destruct a1 as [|[]].
    - apply okp_bind with (fun e => st_name e <> "_"); [|intros e H; cbn; now repeat constructor].
      unfold convert_struct_token. skip. eapply okp_bind; [apply camel_us|]. now intros z Z.
    - apply okp_bind with (fun e => un_name e <> "_"); [|intros e H; cbn; now repeat constructor].
      destruct b as [cond specs dflt]. cbn [convert_union_token]. eapply okp_bind; [apply camel_us|]. intros z Z. skip. skip. skip.
      now destruct (up_default a1).
  Qed.
End Cx.

Definition file_made (f : file) : Prop :=
  Forall (fun c => ident (co_name c) /\ tok_ok (co_value c)) (fi_consts f) /\ Forall made (fi_types f) /\
  Forall (fun i => item_name i <> "_") (fi_types f).
Lemma gen_made n cfg ds : okp (gen_code n cfg ds) file_made.
Proof.
  unfold gen_code. destruct (setup_context ds) as [cs ts].
  eapply okp_bind; [apply okp_gmap; intros c _; apply const_made|]. intros k K.
  pose proof (types_made (Context cfg cs ts) n) as A. pose proof (names_made (Context cfg cs ts) n) as B.
  destruct (types_token _ n) as [l| | |]; try exact Logic.I. now repeat split.
Qed.
