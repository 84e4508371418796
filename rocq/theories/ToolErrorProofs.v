(** C118: exactly for which interface files the generator returns an error, and which one. *)
From Verif Require Import Base RustTypes Nom NomFacts Keyword Ast ParserModel SpecGrammar SpecParse ParseSound ParserLemmas ConstProofs
  CaseModel SpecCase CaseProofs RustAst GenModel SpecGen SpecItems GenFacts GenTotal GenPanic GenLemmas WireBase
  SpecTranslate TranslateProofs TranslateGen TranslateUnion SpecToolPanic ToolPanicProofs ToolPanicUnion SpecToolError.
From Coq Require Import Permutation.
Set Implicit Arguments.
Unset Strict Implicit.
Local Open Scope list_scope.

(** ** Combinators *)
Definition eruns {A} (f : nat -> gres A) (e : gen_error) : Prop := exists N, forall n, (N <= n)%nat -> f n = GErr e.
Lemma eruns_fst {A B} (f : nat -> gres A) (g : nat -> A -> gres B) e : eruns f e -> eruns (fun n => gbind (f n) (g n)) e.
Proof. intros [N H]. exists N. intros n L. now rewrite H. Qed.
Lemma eruns_snd {A B} (f : nat -> gres A) (g : nat -> A -> gres B) a N e : (forall n, (N <= n)%nat -> f n = GOk a) ->
  eruns (fun n => g n a) e -> eruns (fun n => gbind (f n) (g n)) e.
Proof. intros H [M K]. exists (max N M). intros n L. rewrite H by lia. cbn. apply K. lia. Qed.
Lemma eruns_gmap {A B} (f : nat -> A -> gres B) a x b e : (forall y, In y a -> runs (fun n => f n y)) -> eruns (fun n => f n x) e ->
  eruns (fun n => gmap (f n) (a ++ x :: b)) e.
Proof.
  intros H K. induction a as [|y a IH]; cbn [app gmap].
  - now apply eruns_fst.
  - destruct (H y (or_introl eq_refl)) as (c & N & R). eapply eruns_snd; [exact R|].
    apply eruns_fst. apply IH. intros z Hz. apply H. now right.
Qed.
Lemma gbind_err {A B} (r : gres A) (f : A -> gres B) e : gbind r f = GErr e -> r = GErr e \/ exists a, r = GOk a /\ f a = GErr e.
Proof. destruct r; cbn; try discriminate; eauto. intros [= <-]. now left. Qed.
Lemma gmap_err {A B} (f : A -> gres B) l e : gmap f l = GErr e ->
  exists a x b, l = a ++ x :: b /\ f x = GErr e /\ forall y, In y a -> exists c, f y = GOk c.
Proof.
  induction l as [|x l IH]; cbn; [discriminate|]. intros H. apply gbind_err in H as [H|(c & E & H)].
  - exists [], x, l. easy.
  - apply gbind_err in H as [H|(cs & _ & H)]; [|discriminate]. destruct (IH H) as (a & y & b & -> & P & O).
    exists (x :: a), y, b. split; [easy|]. split; [easy|]. intros z [<-|Hz]; eauto.
Qed.
Lemma camel_no_err x e : upper_camel_case_ident x <> GErr e.
Proof. destruct (ident_total x) as [[y E]|E]; rewrite E; discriminate. Qed.
Lemma fits_dec k z : fits k z \/ ~ fits k z.
Proof. destruct k; cbn; lia. Qed.

Section Errors.
  Variables (cfg : config) (ds : list definition).
  Let cx := ctx cfg ds.
  Hypothesis G : good_spec ds.

  (** ** Numbers *)
  Lemma value_eruns k v e : number_error ds k v e -> good_value v -> eruns (fun n => resolve_value cx n k v) e.
  Proof. intros V g. exact (proj2 (number_goes cfg G k) v e V g). Qed.
  Lemma value_err_inv n k v e : good_value v -> resolve_value cx n k v = GErr e -> number_error ds k v e.
  Proof. intros g. exact (proj2 (@number_came cfg ds G n k v g) e). Qed.

  (** ** Types *)
  Lemma size_parse v e : convert_value_token KUsize false v = GErr e -> e = GParse.
  Proof.
    destruct v as [c|x]; cbn.
    - destruct (constant_result KUsize c) as [[z E]|E]; rewrite E; cbn; congruence.
    - unfold ident_new. destruct (ident_text _); discriminate.
  Qed.
  Lemma decl_sizes rt d : good_decl d -> ~ sizes_ok d ->
    (forall t, mentions d = Some t -> exists r, convert_primitive_token rt t = GOk r) -> convert_type_token rt d = GErr GParse.
  Proof.
    intros g s H. destruct d; cbn [convert_type_token mentions] in *; try (exfalso; now apply s).
    - destruct (H _ eq_refl) as [[ty op] E]. rewrite E. cbn [gbind].
      cbn in s, g. destruct (size_token_err (v := v)) as [u U]; try tauto. rewrite (size_parse U) in U. now rewrite U.
    - cbn in s, g. destruct (size_token_err (v := v)) as [u U]; try tauto. rewrite (size_parse U) in U. now rewrite U.
  Qed.
  Lemma decl_errs rt d e : good_decl d -> convert_type_token rt d = GErr e ->
    (exists t, mentions d = Some t /\ convert_primitive_token rt t = GErr e) \/
    (e = GParse /\ ~ sizes_ok d /\ forall t, mentions d = Some t -> exists r, convert_primitive_token rt t = GOk r).
  Proof.
    intros g H. destruct (decl_err_inv g H) as [(t & e' & m & P)|[s T]].
    - left. exists t. split; [easy|]. rewrite (decl_type_err m P) in H. congruence.
    - right. rewrite (decl_sizes g s T) in H. split; [congruence|easy].
  Qed.
  Lemma decl_sizes_runs d : good_decl d -> ~ sizes_ok d -> (forall t, mentions d = Some t -> typed cfg ds t) ->
    eruns (fun n => convert_type_token (resolve_type_token cx n) d) GParse.
  Proof.
    intros g s T. destruct (mentions d) as [t|] eqn:m.
    - destruct (good_mentions g m) as [gt vt]. destruct (typed_runs G (T t eq_refl) gt vt) as (r & N & R).
      exists N. intros n L. apply decl_sizes; try easy. intros t' Et. rewrite m in Et. injection Et as <-. exists r. now apply R.
    - exists O. intros n _. apply decl_sizes; try easy. intros t' Et. congruence.
  Qed.
  Lemma type_eruns t e : type_error cfg ds t e -> good_type t -> t <> TsVoid ->
    eruns (fun n => convert_primitive_token (resolve_type_token cx n) t) e.
  Proof.
    induction 1 as [t h|x d t e H m T IH|x d H T s]; intros g nv.
    - exists O. intros n _. now destruct h.
    - destruct (stands_good G H) as [gd vd]. destruct (good_mentions gd m) as [gt vt].
      destruct (IH gt vt) as [N R]. exists (Datatypes.S N). intros [|n] L; [lia|]. cbn [convert_primitive_token].
      destruct (resolve_cases cfg ds n x) as [(d' & D & E')|[M _]]; [|exfalso; now apply (M d)].
      rewrite (TranslateProofs.stands_fun D H) in E'. unfold cx in *. rewrite E', (decl_type_err m (R n ltac:(lia))). easy.
    - destruct (stands_good G H) as [gd vd]. destruct (decl_sizes_runs gd s T) as [N R]. exists (Datatypes.S N). intros [|n] L; [lia|].
      cbn [convert_primitive_token]. destruct (resolve_cases cfg ds n x) as [(d' & D & E')|[M _]]; [|exfalso; now apply (M d)].
      rewrite (TranslateProofs.stands_fun D H) in E'. unfold cx in *. rewrite E', R by lia. easy.
  Qed.
  Lemma type_err_inv n : forall t e, good_type t -> t <> TsVoid ->
    convert_primitive_token (resolve_type_token cx n) t = GErr e -> type_error cfg ds t e.
  Proof.
    induction n as [|n IH]; intros t e g nv H.
    - destruct t; try discriminate; injection H as <-; constructor; constructor.
    - destruct t; try discriminate; try (injection H as <-; constructor; constructor). cbn [convert_primitive_token] in H.
      destruct (resolve_cases cfg ds n x) as [(d & D & E)|[M E]]; unfold cx in H; rewrite E in H.
      + destruct (stands_good G D) as [gd vd]. apply gbind_err in H as [H|(o & C & H)].
        * destruct (decl_errs gd H) as [(t & m & P)|(-> & s & T)].
          -- destruct (good_mentions gd m) as [gt vt]. exact (te_other _ _ _ _ _ _ D m (IH t e gt vt P)).
          -- apply te_size with d; try easy. intros t m. destruct (T t m) as [r R]. destruct (good_mentions gd m) as [gt vt].
             exact (typed_inv G gt vt R).
        * destruct o; [discriminate|]. exfalso. destruct (decl_inv gd C) as [s T].
          destruct (@decl_ok (resolve_type_token (ctx cfg ds) n) d gd s T) as (o & C' & no). apply no in vd. congruence.
      + apply gbind_err in H as [H|(y & _ & H)]; [|discriminate]. now apply camel_no_err in H.
  Qed.
  Lemma decl_eruns d e : good_decl d -> decl_error cfg ds d e -> eruns (fun n => convert_type_token (resolve_type_token cx n) d) e.
  Proof.
    intros g [(t & m & T)|(T & s & ->)]; [|now apply decl_sizes_runs].
    destruct (good_mentions g m) as [gt vt]. destruct (type_eruns T gt vt) as [N R]. exists N. intros n L. exact (decl_type_err m (R n L)).
  Qed.
  Lemma decl_error_inv n d e : good_decl d -> convert_type_token (resolve_type_token cx n) d = GErr e -> decl_error cfg ds d e.
  Proof.
    intros g H. destruct (decl_errs g H) as [(t & m & P)|(-> & s & T)]; [left|right].
    - exists t. split; [easy|]. destruct (good_mentions g m) as [gt vt]. exact (type_err_inv gt vt P).
    - split; [|easy]. intros t m. destruct (T t m) as [r R]. destruct (good_mentions g m) as [gt vt]. exact (typed_inv G gt vt R).
  Qed.

  (** ** Enums *)
  Lemma enum_eruns x y l e : In (x, TdEnum y l) (type_defs ds) -> definition_error cfg ds (x, TdEnum y l) e ->
    eruns (fun n => convert_enum_token cx n x l) e.
  Proof.
    intros H (a & m & b & -> & F & V). destruct (good_types G H) as [gt _]. cbn in gt. destruct gt as (_ & _ & gl).
    rewrite Forall_forall in gl, F. unfold convert_enum_token. apply eruns_fst. apply eruns_gmap.
    - intros w Hw. destruct (F w Hw) as (z & h & r). destruct (gl w) as [_ gv]; [apply in_app_iff; now left|].
      destruct (@value_runs cfg ds G KI32 _ z gv h) as [N R]; [cbn; lia|]. eapply runs_bind; [exact R|]. eapply runs_const. reflexivity.
    - apply eruns_fst. apply value_eruns; [exact V|]. apply gl. apply in_app_iff. right. now left.
  Qed.
  Lemma enum_error_inv n x y l e : In (x, TdEnum y l) (type_defs ds) -> convert_enum_token cx n x l = GErr e ->
    definition_error cfg ds (x, TdEnum y l) e.
  Proof.
    intros H C. destruct (good_types G H) as [gt _]. cbn in gt. destruct gt as (_ & _ & gl). rewrite Forall_forall in gl.
    unfold convert_enum_token in C. apply gbind_err in C as [C|(ix & _ & C)].
    - apply gmap_err in C as (a & m & b & -> & P & O). exists a, m, b. split; [easy|]. split.
      + apply Forall_forall. intros w Hw. destruct (O w Hw) as [c K]. apply gbind_ok in K as (z & R & _).
        destruct (gl w) as [_ gv]; [apply in_app_iff; now left|].
        destruct (number_found G gv R) as [V f]. exists z. split; [easy|]. cbn in f. lia.
      + apply gbind_err in P as [P|(z & _ & P)]; [|discriminate]. apply (@value_err_inv n); [|exact P]. apply gl. apply in_app_iff. right. now left.
    - exfalso. cbv zeta in C. apply gbind_err in C as [C|(ni & _ & C)]; [now apply camel_no_err in C|].
      apply gbind_err in C as [C|(vs & _ & C)].
      + destruct (@enum_values_total cfg ds (sort_by fst ix) 0) as [[vs E]|E]; unfold cx in C; congruence.
      + apply gbind_err in C as [C|(it & _ & C)].
        * apply gmap_err in C as (a & p & b & _ & P & _). apply gbind_err in P as [P|(w & _ & P)]; [now apply camel_no_err in P|discriminate].
        * destruct it as [|[]]; discriminate.
  Qed.

  (** ** Structs *)
  Lemma snake_no_err x e : snake_case_ident x <> GErr e.
  Proof.
    unfold snake_case_ident, format_ident, ident_new_raw, ident_new. destruct (strip _ _) as [t|].
    - now destruct (ident_text t && _).
    - now destruct (ident_text _).
  Qed.
  Lemma field_eruns x d e : good_decl d -> d <> DVoid -> decl_error cfg ds d e -> eruns (fun n => struct_field cx n x d) e.
  Proof.
    intros g v D. unfold struct_field. destruct (decl_name d) as [z|] eqn:en; [|exfalso; apply v; now destruct d].
    apply eruns_fst. now apply decl_eruns.
  Qed.
  Lemma field_err_inv n x d e : good_decl d -> struct_field cx n x d = GErr e -> d <> DVoid /\ decl_error cfg ds d e.
  Proof.
    intros g F. unfold struct_field in F. destruct (decl_name d) as [z|] eqn:en; [|discriminate].
    assert (v : d <> DVoid) by (intros ->; discriminate). split; [easy|].
    apply gbind_err in F as [F|(o & To & F)]; [exact (decl_error_inv g F)|exfalso].
    apply gbind_err in F as [F|([ty op] & _ & F)].
    - destruct o; [discriminate|]. destruct (decl_inv g To) as [s T].
      destruct (@decl_ok (resolve_type_token cx n) d g s T) as (o & C' & no). apply no in v. congruence.
    - cbv zeta in F. apply gbind_err in F as [F|(i & _ & F)]; [now apply snake_no_err in F|discriminate].
  Qed.
  Lemma struct_eruns x y l e : In (x, TdStruct y l) (type_defs ds) -> definition_error cfg ds (x, TdStruct y l) e ->
    eruns (fun n => convert_struct_token cx n x l) e.
  Proof.
    intros H (a & d & b & -> & F & v & P). destruct (good_types G H) as [gt _]. cbn in gt. destruct gt as (_ & _ & gl). rewrite Forall_forall in gl, F.
    unfold convert_struct_token. apply eruns_fst. apply eruns_gmap.
    - intros z Hz. apply field_runs; try easy; [|now apply F]. apply gl. apply in_app_iff. now left.
    - apply field_eruns; try easy. apply gl. apply in_app_iff. right. now left.
  Qed.
  Lemma struct_error_inv n x y l e : In (x, TdStruct y l) (type_defs ds) -> convert_struct_token cx n x l = GErr e ->
    definition_error cfg ds (x, TdStruct y l) e.
  Proof.
    intros H C. destruct (good_types G H) as [gt _]. cbn in gt. destruct gt as (_ & _ & gl). rewrite Forall_forall in gl.
    unfold convert_struct_token in C. apply gbind_err in C as [C|(fs & _ & C)].
    - apply gmap_err in C as (a & d & b & -> & P & O). exists a, d, b. split; [easy|]. split.
      + apply Forall_forall. intros z Hz. destruct (O z Hz) as [f F]. apply (@field_needs cfg ds G n x z f); [|easy]. apply gl. apply in_app_iff. now left.
      + apply (@field_err_inv n x); [|easy]. apply gl. apply in_app_iff. right. now left.
    - apply gbind_err in C as [C|(ni & _ & C)]; [now apply camel_no_err in C|discriminate].
  Qed.

  (** ** Unions *)
  Lemma case_eruns v d t e : good_decl d -> good_type t -> switchable t -> (exists nm, convert_value_token KU32 true v = GOk nm) ->
    cond_ok cfg ds t -> decl_error cfg ds d e -> eruns (fun n => convert_case_token cx n v d t) e.
  Proof.
    intros gd gt st [nm V] co D. assert (vt : t <> TsVoid) by (intros ->; easy). unfold convert_case_token. rewrite V. cbn [gbind].
    assert (T : exists ty N, forall n, (N <= n)%nat ->
      match convert_primitive_token (resolve_type_token cx n) t with
      | GErr _ => match t with
                  | TsIdent c => gbind (upper_camel_case_ident c) (fun x => GOk (YName x))
                  | _ => GPanic
                  end
      | r => gbind r (fun '(ty, _) => GOk ty)
      end = GOk ty).
    { destruct co as [co|(c & -> & R & cc)].
      - destruct (typed_runs G co gt vt) as ([ty op] & N & P). exists ty, N. intros n L. unfold cx. now rewrite P.
      - destruct (refused_runs G R gt vt) as (e' & N & P). exists (YName (camel c)), N. intros n L. unfold cx. rewrite P by easy.
        now rewrite camel_ident. }
    destruct T as (ty & N & T). eapply eruns_snd; [exact T|]. apply eruns_fst. now apply decl_eruns.
  Qed.
  Lemma case_error_inv n v d t e : good_value v -> good_decl d -> good_type t -> switchable t ->
    (label_ok v -> exists nm, convert_value_token KU32 true v = GOk nm) ->
    convert_case_token cx n v d t = GErr e -> label_ok v /\ cond_ok cfg ds t /\ decl_error cfg ds d e.
  Proof.
    intros gv gd gt st VV H. assert (vt : t <> TsVoid) by (intros ->; easy).
    unfold convert_case_token in H. apply gbind_err in H as [H|(nm & Hn & H)].
    { exfalso. assert (D : label_ok v \/ ~ label_ok v) by (destruct v as [c|x]; [now left|apply camel_dec]).
      destruct D as [D|D]; [destruct (VV D) as [nm E]; congruence|]. destruct v as [c|x]; [now apply D|].
      cbn in H. rewrite (camel_panic D) in H. discriminate. }
    split; [destruct v as [c|x]; [easy|]; cbn in Hn; apply gbind_ok in Hn as (y & Hy & _); exact (camel_needs Hy)|].
    apply gbind_err in H as [H|(ty & T & H)].
    - exfalso. destruct (convert_primitive_token (resolve_type_token cx n) t) as [[]|e'| |] eqn:E; try discriminate.
      destruct t; try discriminate. apply gbind_err in H as [H|(y & _ & H)]; [now apply camel_no_err in H|discriminate].
    - split.
      + destruct (convert_primitive_token (resolve_type_token cx n) t) as [r|e'| |] eqn:E; try discriminate.
        * left. exact (typed_inv G gt vt E).
        * right. destruct t; try discriminate. apply gbind_ok in T as (y & Hy & _). exists x. split; [easy|].
          split; [exact (refused_inv G gt vt E)|exact (camel_needs Hy)].
      + apply gbind_err in H as [H|(o & _ & H)]; [|discriminate]. exact (decl_error_inv gd H).
  Qed.
  Lemma label_eruns t q b s acc e : good_label ds q -> good_type t -> switchable t -> 0 <= s -> label_error cfg ds t q e ->
    eruns (fun n => union_values cx n t s (q :: b) acc) e.
  Proof.
    intros (gv & gd & f & V) gt st Hs (lv & co & D). destruct q as [[z d] v]. unfold key in *. cbn [fst snd] in *.
    destruct (fill_good cfg z Hs) as [fl Fl].
    destruct (@case_eruns v d t e gd gt st (label_value cfg G gv f V lv) co D) as [N R]. exists N. intros n L.
    unfold cx. rewrite values_cons, Fl. cbn [gbind]. fold cx. rewrite R by easy. easy.
  Qed.
  Lemma values_error n t l e : good_type t -> switchable t -> Forall (good_label ds) l -> forall s acc, 0 <= s ->
    union_values cx n t s l acc = GErr e ->
    exists a q b, l = a ++ q :: b /\ Forall (label_fine cfg ds t) a /\ label_error cfg ds t q e.
  Proof.
    intros gt st. assert (vt : t <> TsVoid) by (intros ->; easy).
    induction l as [|[[z d] v] l IH]; intros g s acc Hs H; [discriminate|].
    inversion g as [|? ? (gv & gd & f & V) g']; subst. unfold key in *. cbn [fst snd] in *. unfold cx in H. rewrite values_cons in H.
    destruct (fill_good cfg z Hs) as [fl Fl]. rewrite Fl in H. cbn [gbind] in H.
    apply gbind_err in H as [H|(ct & C & H)].
    { exists [], (z, d, v), l. split; [easy|]. split; [constructor|]. unfold label_error. cbn [fst snd].
      apply (@case_error_inv n); try easy. intros lv. exact (label_value cfg G gv f V lv). }
    destruct (case_needs G gd gt vt C) as (lv & co & ex).
    apply gbind_err in H as [H|(bv & B & H)].
    { exfalso. destruct (@by_value_total cfg ds t z v ct gv lv) as [B|[bv B]]; congruence. }
    apply gbind_err in H as [H|(s' & S' & H)].
    { exfalso. unfold succ_checked in H. destruct (z <? _); [discriminate|]. destruct (overflow_checks cfg); discriminate. }
    destruct (IH g' _ _ (succ_nonneg f S') H) as (a & q & b & -> & Fa & P). exists ((z, d, v) :: a), q, b. split; [easy|].
    split; [|easy]. constructor; [|easy]. split; [easy|]. split; [exact co|]. split; [exact ex|]. split; [exact (by_value_needs G B)|].
    cbn [fst snd]. apply (union_succ cfg f). eauto.
  Qed.

  (** the numbers of the labels *)
  Definition arm_numbered (p : decl * value) : Prop := exists z, number_is ds KU32 (snd p) z /\ 0 <= z < 2 ^ 32.
  Lemma value_go v d : good_value v -> arm_numbered (d, v) ->
    runs (fun n => gbind (resolve_value cx n KU32 v) (fun z => GOk (z, d, v))).
  Proof.
    intros gv (z & V & r). cbn [snd] in V. destruct (@value_runs cfg ds G KU32 v z gv V) as [N K]; [cbn; lia|].
    eapply runs_bind; [exact K|]. eapply runs_const. reflexivity.
  Qed.
  Lemma arms_eruns specs : Forall good_case specs -> forall a p b e, arms_of specs = a ++ p :: b -> Forall arm_numbered a ->
    number_error ds KU32 (snd p) e -> eruns (fun n => arms cfg ds n specs) e.
  Proof.
    intros gs. induction specs as [|[vs d] specs IH]; intros a p b e E F V; [now destruct a|].
    inversion gs as [|? ? gcs gs']; subst. cbn in gcs. destruct gcs as (_ & gvs & gd). rewrite Forall_forall in gvs.
    cbn [arms_of flat_map] in E. fold (arms_of specs) in E. unfold arms. cbn [gmap]. fold cx.
    assert (C : (exists a' v b', vs = a' ++ v :: b' /\ map (fun v => (d, v)) a' = a /\ p = (d, v)) \/
                (exists a', a = map (fun v => (d, v)) vs ++ a' /\ arms_of specs = a' ++ p :: b)).
    { clear - E. revert a E. induction vs as [|v vs IH]; intros a E; cbn [map app] in E.
      - right. now exists a.
      - destruct a as [|q a]; cbn in E; injection E as <- E.
        + left. exists [], v, vs. easy.
        + destruct (IH a E) as [(a' & w & b' & -> & <- & ->)|(a' & -> & E')].
          * left. exists (v :: a'), w, b'. easy.
          * right. now exists a'. }
    rewrite Forall_forall in F. destruct C as [(a' & v & b' & -> & <- & ->)|(a' & -> & E')].
    - apply eruns_fst. apply eruns_gmap.
      + intros w Hw. apply value_go; [apply gvs; apply in_app_iff; now left|]. apply F. now apply (in_map (fun v => (d, v))).
      + apply eruns_fst. apply value_eruns; [exact V|]. apply gvs. apply in_app_iff. right. now left.
    - destruct (@runs_gmap _ _ (fun n v => gbind (resolve_value cx n KU32 v) (fun z => GOk (z, d, v))) vs) as (qs & N & R).
      + intros w Hw. apply value_go; [now apply gvs|]. apply F. apply in_app_iff. left. now apply (in_map (fun v => (d, v))).
      + eapply eruns_snd; [exact R|]. apply eruns_fst. apply (IH gs' a' p b e E'); [|exact V]. apply Forall_forall. intros q Hq.
        apply F. apply in_app_iff. now right.
  Qed.
  Lemma arms_error_inv n specs e : Forall good_case specs -> arms cfg ds n specs = GErr e ->
    exists a p b, arms_of specs = a ++ p :: b /\ Forall arm_numbered a /\ number_error ds KU32 (snd p) e.
  Proof.
    intros gs H. apply gmap_err in H as (A & [vs d] & B & -> & H & O).
    apply Forall_app in gs as [gA gB]. inversion gB as [|? ? gcs _]; subst. cbn in gcs. destruct gcs as (_ & gvs & gd).
    rewrite Forall_forall in gvs. apply gmap_err in H as (a & v & b & -> & H & O').
    unfold arms_of. rewrite flat_map_app. cbn [flat_map]. rewrite map_app. cbn [map].
    exists (arms_of A ++ map (fun v => (d, v)) a), (d, v), (map (fun v => (d, v)) b ++ arms_of B). split; [now rewrite <- !app_assoc|]. split.
    - apply Forall_app. split.
      + apply Forall_forall. intros [d' v'] Hp. unfold arms_of in Hp. apply in_flat_map in Hp as ([us u] & Hs & Hp).
        apply in_map_iff in Hp as (w & [= -> ->] & Hw). destruct (O _ Hs) as [c K].
        rewrite Forall_forall in gA. destruct (gA _ Hs) as (_ & gu & _). rewrite Forall_forall in gu.
        destruct (gmap_in K Hw) as [q Q]. apply gbind_ok in Q as (z & R & _). destruct (number_found G (gu _ Hw) R) as [V f].
        exists z. split; [easy|]. cbn in f. lia.
      + apply Forall_map. apply Forall_forall. intros w Hw. destruct (O' w Hw) as [c K]. apply gbind_ok in K as (z & R & _).
        destruct (number_found G (gvs w ltac:(apply in_app_iff; now left)) R) as [V f]. exists z. split; [easy|]. cbn in f. lia.
    - apply gbind_err in H as [H|(z & _ & H)]; [|discriminate]. apply (@value_err_inv n); [|exact H]. apply gvs. apply in_app_iff. right. now left.
  Qed.

  Lemma default_eruns o p e : (forall d, o = Some d -> good_decl d) -> default_error cfg ds o e -> eruns (fun n => union_default cx n o p) e.
  Proof. intros g (d & -> & D). unfold union_default. apply eruns_fst. apply decl_eruns; [now apply g|easy]. Qed.
  Lemma default_error_inv n o p e : (forall d, o = Some d -> good_decl d) -> union_default cx n o p = GErr e -> default_error cfg ds o e.
  Proof.
    intros g H. unfold union_default in H. destruct o as [d|]; [|discriminate]. exists d. split; [easy|].
    apply gbind_err in H as [H|(x & _ & H)]; [|discriminate]. exact (decl_error_inv (g d eq_refl) H).
  Qed.
  Lemma bool_eruns b specs acc d e : Forall good_case specs -> arm_of (truth b) specs d -> decl_error cfg ds d e ->
    eruns (fun n => bool_case cx n TsBool b specs acc) e.
  Proof.
    intros gs A U. unfold bool_case. pose proof (find_arm b specs) as F. cbv zeta.
    destruct (find _ specs) as [[vs d']|].
    - destruct F as (I & Is & E). apply E in A. subst d'. rewrite (find_truth I). rewrite Forall_forall in gs.
      destruct (gs _ Is) as (_ & gvs & gd). apply eruns_fst. apply case_eruns; try easy.
      + destruct b; vm_compute; eauto.
      + left. constructor. constructor.
    - exfalso. apply F. exact (arm_label A).
  Qed.
  Lemma bool_error_inv n b specs acc e : Forall good_case specs -> bool_case cx n TsBool b specs acc = GErr e ->
    exists d, arm_of (truth b) specs d /\ decl_error cfg ds d e.
  Proof.
    intros gs H. unfold bool_case in H. pose proof (find_arm b specs) as F. cbv zeta in H.
    destruct (find _ specs) as [[vs d]|].
    - destruct F as (I & Is & U). rewrite (find_truth I) in H. exists d. split; [now apply U|].
      rewrite Forall_forall in gs. destruct (gs _ Is) as (_ & gvs & gd). rewrite Forall_forall in gvs.
      apply gbind_err in H as [H|(ct & _ & H)]; [|discriminate].
      apply case_error_inv in H as (_ & _ & D); try easy; [now apply gvs|]. intros _. destruct b; vm_compute; eauto.
    - change (cx_config cx) with cfg in H. destruct (union_complement_index cfg); [|discriminate].
      unfold reserved_variant in H. rewrite reserved_ok in H by (destruct b; lia). discriminate.
  Qed.

  Lemma union_eruns x y u e : In (x, TdUnion y u) (type_defs ds) -> camelable x -> union_error cfg ds u e ->
    eruns (fun n => convert_union_token cx n x u) e.
  Proof.
    intros H cx' U. destruct (good_types G H) as [gt nx].
    assert (gx : good_name x) by (cbn in nx; injection nx as <-; apply gt).
    destruct gt as (_ & gu). destruct u as [c specs dflt].
    cbn [good_union_body] in gu. destruct gu as (gc & ns & gs & gd). apply good_fold in gs. cbn [convert_union_token].
    rewrite camel_ident by easy. cbn [gbind]. destruct U as [(t & z & -> & U)|[U ->]].
    2:{ assert (E : match c with DVariable t _ => GOk t | _ => GErr GNotSupported end = GErr GNotSupported) by (destruct c; try easy; now destruct (U t x0)).
        rewrite E. now exists O. }
    destruct (good_mentions gc (eq_refl : mentions (DVariable t z) = Some t)) as [gt vt]. cbn [gbind].
    assert (gd' : forall d, dflt = Some d -> good_decl d) by (intros d ->; exact gd).
    assert (V : switchable t -> (exists a p b, arms_of specs = a ++ p :: b /\ Forall arm_numbered a /\ number_error ds KU32 (snd p) e) \/
        (exists l, numbered ds specs l /\
          ((exists q, reached cfg ds t l q /\ label_error cfg ds t q e) \/
           Forall (label_fine cfg ds t) l /\ default_error cfg ds dflt e)) -> forall h : union_parts -> gres union_item,
      eruns (fun n => gbind (gbind (arms cfg ds n specs) (fun values =>
        union_values cx n t 0 (sort_by (fun p => fst (fst p)) (concat values)) no_parts)) (fun p => gbind (union_default cx n dflt p) h)) e).
    { intros st [(a & p & b & E & F & Ve)|(l & Nl & P)] h.
      { apply eruns_fst. apply eruns_fst. exact (arms_eruns gs E F Ve). }
      destruct (numbered_arms cfg G gs Nl) as (vals & N & <- & R). pose proof (numbered_good gs Nl) as gl.
      change (fun p : Z * decl * value => fst (fst p)) with key.
      destruct P as [(q & (a & b & E & h1 & h2) & P)|[F P]].
      - apply eruns_fst. eapply eruns_snd; [exact R|]. rewrite E. destruct (sort_goes key a q b) as (A1 & B1 & S1 & K). rewrite S1.
        assert (gl' : Forall (good_label ds) (A1 ++ q :: B1)).
        { rewrite <- S1, <- E. apply Forall_forall. intros r Hr. apply sort_by_in in Hr. rewrite Forall_forall in gl. now apply gl. }
        apply Forall_app in gl' as [gA gq]. inversion gq as [|? ? gq' _]; subst.
        destruct (@values_app cfg ds G t A1 (q :: B1) gt st) with (s := 0) (acc := no_parts) as (s' & acc' & M & s0 & W); [|lia|].
        + apply Forall_forall. intros r Hr. rewrite Forall_forall in gA. split; [now apply gA|].
          destruct (K r Hr) as [[]|[]]; [now apply h1|now apply h2].
        + destruct (@label_eruns t q B1 s' acc' e gq' gt st s0 P) as [M' W']. exists (max M M'). intros n L. unfold cx. rewrite W by lia. apply W'. lia.
      - assert (gl' : Forall (fun q => good_label ds q /\ label_fine cfg ds t q) (sort_by key (concat vals))).
        { apply Forall_forall. intros r Hr. apply sort_by_in in Hr. rewrite Forall_forall in gl, F. auto. }
        destruct (@values_app cfg ds G t (sort_by key (concat vals)) [] gt st gl') with (s := 0) (acc := no_parts) as (s' & acc' & M & s0 & W); [lia|].
        apply eruns_snd with (a := acc') (N := max N M).
        + intros n L. rewrite R by lia. cbn [gbind]. rewrite app_nil_r in W. unfold cx. rewrite W by lia. easy.
        + apply eruns_fst. now apply default_eruns. }
    destruct t; cbn [switch_error] in U; try (rewrite U; now exists O).
    - apply V; easy.
    - clear V. destruct U as [(d & A & P)|[[F (d & A & P)]|(F & T & P)]].
      + apply eruns_fst. apply eruns_fst. exact (@bool_eruns false specs no_parts d e gs A P).
      + destruct (@bool_runs cfg ds G false specs no_parts gs F) as (p1 & N1 & R1 & _). apply eruns_fst.
        eapply eruns_snd; [exact R1|]. apply eruns_fst. exact (@bool_eruns true specs p1 d e gs A P).
      + destruct (@bool_runs cfg ds G false specs no_parts gs F) as (p1 & N1 & R1 & _).
        destruct (@bool_runs cfg ds G true specs p1 gs T) as (p2 & N2 & R2 & _).
        eapply eruns_snd with (N := max N1 N2).
        * intros n L. unfold cx. rewrite R1 by lia. cbn [gbind]. rewrite R2 by lia. cbn [gbind]. reflexivity.
        * apply eruns_fst. now apply default_eruns.
    - apply V; easy.
  Qed.
  Lemma union_error_inv n x y u e : In (x, TdUnion y u) (type_defs ds) -> convert_union_token cx n x u = GErr e ->
    camelable x /\ union_error cfg ds u e.
  Proof.
    intros H C. destruct (good_types G H) as [gt nx].
    destruct gt as (_ & gu). destruct u as [c specs dflt].
    cbn [good_union_body] in gu. destruct gu as (gc & ns & gs & gd). apply good_fold in gs. cbn [convert_union_token] in C.
    apply gbind_err in C as [C|(ni & Ni & C)]; [now apply camel_no_err in C|]. split; [exact (camel_needs Ni)|].
    apply gbind_err in C as [C|(t & Et & C)].
    { right. destruct c; try discriminate; injection C as <-; split; easy. }
    left. assert (exists z, c = DVariable t z) as [z ->] by (destruct c; try discriminate; injection Et as <-; eauto). clear Et.
    destruct (good_mentions gc (eq_refl : mentions (DVariable t z) = Some t)) as [gt vt].
    exists t, z. split; [easy|].
    assert (gd' : forall d, dflt = Some d -> good_decl d) by (intros d ->; exact gd).
    assert (V : switchable t -> forall h : union_parts -> gres union_item,
      (forall p, h p <> GErr e) ->
      gbind (gbind (arms cfg ds n specs) (fun values =>
        union_values cx n t 0 (sort_by (fun p => fst (fst p)) (concat values)) no_parts)) (fun p => gbind (union_default cx n dflt p) h) = GErr e ->
      (exists a p b, arms_of specs = a ++ p :: b /\ Forall arm_numbered a /\ number_error ds KU32 (snd p) e) \/
      exists l, numbered ds specs l /\
          ((exists q, reached cfg ds t l q /\ label_error cfg ds t q e) \/
           Forall (label_fine cfg ds t) l /\ default_error cfg ds dflt e)).
    { intros st h Hh E. change (fun p : Z * decl * value => fst (fst p)) with key in E.
      apply gbind_err in E as [E|(p & Ep & E)].
      - apply gbind_err in E as [E|(vals & Ea & E)]; [left; exact (arms_error_inv gs E)|right].
        pose proof (arms_numbered G gs Ea) as Nl. pose proof (numbered_good gs Nl) as gl. exists (concat vals). split; [easy|left].
        apply values_error in E as (A1 & q & B1 & S1 & F & P); try easy.
        + exists q. split; [|easy]. destruct (sort_from S1) as (a & b & Ec & h1 & h2). exists a, b. rewrite Forall_forall in F.
          split; [easy|]. split; intros r Hr L; apply F; [now apply h1|now apply h2].
        + apply Forall_forall. intros r Hr. apply sort_by_in in Hr. rewrite Forall_forall in gl. now apply gl.
      - right. apply gbind_ok in Ep as (vals & Ea & Ep).
        pose proof (arms_numbered G gs Ea) as Nl. pose proof (numbered_good gs Nl) as gl. exists (concat vals). split; [easy|right].
        apply (values_fine G) in Ep as [F D]; try easy.
        2:{ apply Forall_forall. intros r Hr. apply sort_by_in in Hr. rewrite Forall_forall in gl. now apply gl. }
        split; [apply Forall_forall; intros r Hr; rewrite Forall_forall in F; apply F; now apply sort_by_in|].
        apply gbind_err in E as [E|(q & Eq & E)]; [exact (default_error_inv gd' E)|]. now apply Hh in E. }
    destruct t; cbn [switch_error]; try (apply gbind_err in C as [C|(? & C & _)]; congruence).
    - eapply V; [easy| |exact C]. cbv beta zeta. intros p. now destruct (up_default p).
    - clear V. apply gbind_err in C as [C|(p & Ep & C)].
      + apply gbind_err in C as [C|(p1 & E1 & C)]; [left; exact (bool_error_inv gs C)|right; left].
        apply gbind_err in C as [C|(p2 & _ & C)]; [|discriminate].
        split; [exact (proj1 (bool_needs G gs E1))|exact (bool_error_inv gs C)].
      + right. right. apply gbind_ok in Ep as (p1 & E1 & Ep). apply gbind_ok in Ep as (p2 & E2 & [= <-]).
        split; [exact (proj1 (bool_needs G gs E1))|]. split; [exact (proj1 (bool_needs G gs E2))|].
        apply gbind_err in C as [C|(q & Eq & C)]; [exact (default_error_inv gd' C)|].
        cbv zeta in C. now destruct (up_default q).
    - eapply V; [easy| |exact C]. cbv beta zeta. intros p. now destruct (up_default p).
  Qed.

  (** ** Definitions *)
  Lemma definition_eruns p e : In p (type_defs ds) -> definition_error cfg ds p e -> eruns (fun n => type_token_of cx n p) e.
  Proof.
    intros I H. destruct p as [x t]. destruct t as [d|y m|y m|y u]; cbn [type_token_of].
    - unfold definition_error in H. cbn [fst snd] in H. destruct H as [r H]. change (cx_config cx) with cfg. rewrite r.
      destruct (good_types G I) as [gd nx].
      destruct H as [H|(ex & op' & ->)]; [apply eruns_fst; now apply decl_eruns|].
      destruct (expressible_runs G ex gd) as (o & N & R & v). eapply eruns_snd; [exact R|].
      destruct o as [[ty op]|]; [|exfalso; apply v; [intros ->; discriminate|easy]]. cbn [required gbind].
      assert (op <> OpNone) by (intros ->; apply (@kept_opaque cfg ds N d ty OpNone r (R N ltac:(lia))); easy).
      exists O. intros n _. now destruct op.
    - apply eruns_fst. exact (enum_eruns I H).
    - apply eruns_fst. exact (struct_eruns I H).
    - apply eruns_fst. destruct H. now apply (union_eruns I).
  Qed.
  Lemma definition_error_inv n p e : In p (type_defs ds) -> type_token_of cx n p = GErr e -> definition_error cfg ds p e.
  Proof.
    intros I H. destruct p as [x t]. destruct t as [d|y m|y m|y u]; cbn [type_token_of] in H.
    - unfold definition_error. cbn [fst snd]. change (cx_config cx) with cfg in H. destruct (remove_typedef cfg) eqn:r; [discriminate|].
      split; [easy|]. destruct (good_types G I) as [gd nx].
      apply gbind_err in H as [H|(o & Ho & H)]; [left; exact (decl_error_inv gd H)|right].
      apply gbind_err in H as [H|([ty op] & Hr & H)].
      { exfalso. destruct o; [discriminate|]. destruct (decl_inv gd Ho) as [s T].
        destruct (@decl_ok (resolve_type_token cx n) d gd s T) as (o & C' & no). rewrite Ho in C'. injection C' as <-. apply no; [|easy].
        intros ->. discriminate. }
      destruct o as [q|]; [|discriminate]. injection Hr as ->. split; [exact (expressible_inv G gd Ho)|].
      destruct op; [apply gbind_err in H as [H|(w & _ & H)]; [now apply camel_no_err in H|discriminate]|..]; injection H as <-; (split; [|easy]).
      + destruct (kept_opaque r Ho) as [_ K]. unfold is_opaque in *. destruct d; try easy; discriminate (K ltac:(easy)).
      + destruct (kept_opaque r Ho) as [_ K]. unfold is_opaque in *. destruct d; try easy; discriminate (K ltac:(easy)).
    - apply gbind_err in H as [H|(w & _ & H)]; [|discriminate]. exact (enum_error_inv I H).
    - apply gbind_err in H as [H|(w & _ & H)]; [|discriminate]. exact (struct_error_inv I H).
    - apply gbind_err in H as [H|(w & _ & H)]; [|discriminate]. exact (union_error_inv I H).
  Qed.
End Errors.

Lemma const_error x v : good_name x -> good_value v -> ~ constant_ok v -> constant_token (x, v) = GErr GParse.
Proof.
  intros gx gv H. destruct v as [c|y]; [|exfalso; now apply H]. cbn. rewrite plain_ident by easy. cbn [gbind].
  destruct (stands_total gv) as [z S].
  assert (N : ~ fits KU64 z) by (intros f; apply H; exists z; cbn in f; split; [easy|lia]).
  assert (N' : ~ fits KU32 z) by (cbn in N |- *; lia).
  rewrite (constant_overflows gv S N'), (constant_overflows gv S N). easy.
Qed.
Lemma const_dec v : good_value v -> constant_ok v \/ ~ constant_ok v.
Proof. exact (@size_dec v). Qed.
Lemma const_token_err x v e : good_name x -> good_value v -> constant_token (x, v) = GErr e -> ~ constant_ok v /\ e = GParse.
Proof.
  intros gx gv H. destruct (const_dec gv) as [o|o].
  - apply (@const_size x v gx gv) in o as [c E]. congruence.
  - rewrite (const_error gx gv o) in H. split; [easy|congruence].
Qed.

Theorem errors_exact cfg ds e : good_spec ds ->
  greturns (fun n => gen_code n cfg ds) (GErr e) <-> fails_with cfg ds e.
Proof.
  intros G. pose proof (good_consts G) as F. rewrite Forall_forall in F. split.
  - intros H. apply greturns_run in H as (n & H & _). rewrite gen_code_eq in H.
    apply gbind_err in H as [H|(cs & Hc & H)]; [left|right].
    + apply gmap_err in H as (a & [x v] & b & E & P & O). cbn [constants ctx] in E. exists a, (x, v), b. split; [easy|].
      destruct (F (x, v)) as [g1 g2]; [rewrite E; apply in_app_iff; right; now left|]. split; [|exact (const_token_err g1 g2 P)].
      apply Forall_forall. intros [y w] Hy. destruct (F (y, w)) as [g3 g4]; [rewrite E; apply in_app_iff; now left|].
      apply (@const_size y w g3 g4). now apply O.
    + split.
      * apply Forall_forall. intros [y w] Hy. destruct (F (y, w)) as [g3 g4]; [easy|]. apply (@const_size y w g3 g4).
        apply (gmap_in Hc). exact Hy.
      * apply gbind_err in H as [H|(ts & _ & H)]; [|discriminate]. unfold types_token in H.
        apply gbind_err in H as [H|(ls & _ & H)]; [|discriminate]. apply gmap_err in H as (a & p & b & E & P & O).
        cbn [typedefs ctx] in E. exists a, p, b. split; [exact E|]. split.
        -- apply Forall_forall. intros q Hq. destruct (O q Hq) as [c K].
           apply (@type_needs cfg ds G n q c); [|exact K]. rewrite E. apply in_app_iff. now left.
        -- apply (@definition_error_inv cfg ds G n p); [|exact P]. rewrite E. apply in_app_iff. right. now left.
  - assert (CR : forall p, In p (const_defs ds) -> constant_ok (snd p) -> runs (fun _ : nat => constant_token p)).
    { intros [x v] I o. destruct (F _ I) as [g1 g2]. cbn [fst snd] in *. destruct (proj2 (@const_size x v g1 g2) o) as [c K]. exact (runs_const K). }
    intros [(a & [x v] & b & E & Ha & nv & ->)|[Hc (a & p & b & E & Ha & P)]]; (split; [discriminate|]).
    + destruct (@eruns_gmap _ _ (fun _ : nat => constant_token) a (x, v) b GParse) as [N R].
      * intros y Hy. rewrite Forall_forall in Ha. apply CR; [rewrite E; apply in_app_iff; now left|now apply Ha].
      * exists O. intros _ _. destruct (F (x, v)) as [g1 g2]; [rewrite E; apply in_app_iff; right; now left|]. now apply const_error.
      * exists N. intros n L. rewrite gen_code_eq. unfold constants_token. cbn [constants ctx]. rewrite E, (R n L). easy.
    + assert (C : exists cs, constants_token (ctx cfg ds) = GOk cs).
      { destruct (@runs_gmap _ _ (fun _ => constant_token) (const_defs ds)) as (cs & N & R); [|exists cs; exact (R N ltac:(lia))].
        intros y Hy. rewrite Forall_forall in Hc. apply CR; [easy|now apply Hc]. }
      destruct C as [cs C].
      assert (R : eruns (fun n => gmap (type_token_of (ctx cfg ds) n) (type_defs ds)) e).
      { rewrite E. apply eruns_gmap.
        - intros q Hq. rewrite Forall_forall in Ha. apply type_runs; try easy; [|now apply Ha]. rewrite E. apply in_app_iff. now left.
        - apply definition_eruns; try easy. rewrite E. apply in_app_iff. right. now left. }
      destruct R as [N R]. exists N. intros n L. rewrite gen_code_eq, C. cbn [gbind]. unfold types_token. cbn [typedefs ctx].
      rewrite R by easy. easy.
Qed.
Theorem tool_errors_exact fl checks t ds e : greturns (fun n => parse n t) (GOk ds) ->
  greturns (fun n => rpcgen n fl checks t) (GErr e) <-> fails_with (main_config fl checks) ds e.
Proof.
  intros P. rewrite <- (errors_exact (main_config fl checks) e (c34 P)). destruct P as [_ [N P]]. split.
  - intros [_ [M H]]. split; [easy|]. exists (max N M). intros n L. specialize (H n ltac:(lia)).
    unfold rpcgen in H. rewrite P in H by lia. exact H.
  - intros [_ [M H]]. split; [easy|]. exists (max N M). intros n L.
    unfold rpcgen. rewrite P by lia. cbn [gbind]. apply H. lia.
Qed.
Theorem endless_exact cfg ds : good_spec ds ->
  gdiverges (fun n => gen_code n cfg ds) <->
  ~ translatable cfg ds /\ ~ panics_on cfg ds /\ forall e, ~ fails_with cfg ds e.
Proof.
  intros G. rewrite <- (translated cfg G), <- (panics_exact cfg G). split.
  - intros D. split; [|split].
    + intros [f [_ [N H]]]. specialize (H N ltac:(lia)). now rewrite D in H.
    + intros [_ [N H]]. specialize (H N ltac:(lia)). now rewrite D in H.
    + intros e H. apply (errors_exact cfg e G) in H as [_ [N H]]. specialize (H N ltac:(lia)). now rewrite D in H.
  - intros (h1 & h2 & h3) n. destruct (gen_code n cfg ds) as [f|e| |] eqn:E; [..|easy]; exfalso.
    + apply h1. exists f. apply (greturns_mono (@gen_mono cfg ds) E). discriminate.
    + apply (h3 e). apply (errors_exact cfg e G). apply (greturns_mono (@gen_mono cfg ds) E). discriminate.
    + apply h2. apply (greturns_mono (@gen_mono cfg ds) E). discriminate.
Qed.
