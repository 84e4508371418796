(** Completeness of the parser: every text of the grammar is accepted, with the
    definitions it denotes. *)
From Verif Require Import Base Nom Keyword Ast ParserModel SpecGrammar NomFacts ParseSound ParseTotal.
Set Implicit Arguments.
Unset Strict Implicit.
Open Scope list_scope.

(** ** Running combinators *)
Definition eats {A} (p : nparser A) (i r : text) : Prop := exists a, p i = POk a r.

Lemma eats_run {A} (p : nparser A) i a r : p i = POk a r -> eats p i r.
Proof. now exists a. Qed.
Lemma eats_pair {A B} (p : nparser A) (q : nparser B) i j r :
  eats p i j -> eats q j r -> eats (pair p q) i r.
Proof.
  intros [a E] [b F]. exists (a, b). unfold pair. rewrite (pbind_run _ E), (pbind_run _ F). reflexivity.
Qed.
Lemma pair_run {A B} (p : nparser A) (q : nparser B) i a j b r :
  p i = POk a j -> q j = POk b r -> pair p q i = POk (a, b) r.
Proof. intros E F. unfold pair. rewrite (pbind_run _ E), (pbind_run _ F). reflexivity. Qed.
Lemma pmap_run {A B} (p : nparser A) (f : A -> B) i a r : p i = POk a r -> pmap p f i = POk (f a) r.
Proof. intros E. unfold pmap. now rewrite (pbind_run _ E). Qed.
Lemma preceded_run {A B} (p : nparser A) (q : nparser B) i j b r :
  eats p i j -> q j = POk b r -> preceded p q i = POk b r.
Proof. intros [a E] F. unfold preceded. now rewrite (pbind_run _ E). Qed.
Lemma terminated_run {A B} (p : nparser A) (q : nparser B) i j a r :
  p i = POk a j -> eats q j r -> terminated p q i = POk a r.
Proof. intros E [b F]. unfold terminated. now rewrite (pbind_run _ E), (pbind_run _ F). Qed.
Lemma delimited_run {A B C} (p : nparser A) (q : nparser B) (s : nparser C) i j b k r :
  eats p i j -> q j = POk b k -> eats s k r -> delimited p q s i = POk b r.
Proof. intros. eapply preceded_run; [eassumption|]. eapply terminated_run; eassumption. Qed.
Lemma opt_run {A} (p : nparser A) i a r : p i = POk a r -> opt p i = POk (Some a) r.
Proof. intros E. unfold opt. now rewrite E. Qed.
Lemma opt_err {A} (p : nparser A) i : p i = PErr -> opt p i = POk None i.
Proof. intros E. unfold opt. now rewrite E. Qed.

Lemma pmap_err {A B} (p : nparser A) (f : A -> B) i : p i = PErr -> pmap p f i = PErr.
Proof. intros E. now apply pbind_err. Qed.
Lemma pair_err1 {A B} (p : nparser A) (q : nparser B) i : p i = PErr -> pair p q i = PErr.
Proof. intros E. now apply pbind_err. Qed.
Lemma pair_err2 {A B} (p : nparser A) (q : nparser B) i j :
  eats p i j -> q j = PErr -> pair p q i = PErr.
Proof. intros [a E] F. unfold pair. rewrite (pbind_run _ E). now apply pbind_err. Qed.
Lemma preceded_err1 {A B} (p : nparser A) (q : nparser B) i : p i = PErr -> preceded p q i = PErr.
Proof. intros E. now apply pbind_err. Qed.
Lemma preceded_err2 {A B} (p : nparser A) (q : nparser B) i j :
  eats p i j -> q j = PErr -> preceded p q i = PErr.
Proof. intros [a E] F. unfold preceded. now rewrite (pbind_run _ E). Qed.
Lemma terminated_err1 {A B} (p : nparser A) (q : nparser B) i : p i = PErr -> terminated p q i = PErr.
Proof. intros E. now apply pbind_err. Qed.
Lemma terminated_err2 {A B} (p : nparser A) (q : nparser B) i a j :
  p i = POk a j -> q j = PErr -> terminated p q i = PErr.
Proof. intros E F. unfold terminated. rewrite (pbind_run _ E). now apply pbind_err. Qed.
Lemma delimited_err1 {A B C} (p : nparser A) (q : nparser B) (s : nparser C) i :
  p i = PErr -> delimited p q s i = PErr.
Proof. intros E. now apply preceded_err1. Qed.

(** ** First characters *)
Definition firm (c : ascii) : bool := negb (is_space c) && negb (Ascii.eqb c "/").
(** not white space, not the start of a comment *)
Definition solid (i : text) : Prop := match i with [] => True | c :: _ => firm c = true end.
Definition nonname (i : text) : Prop := ~ starts name_char i.

Lemma solid_space i : solid i -> ~ starts is_space i.
Proof. destruct i as [|c i]; cbn; [auto|]. unfold firm. destruct (is_space c); [discriminate|congruence]. Qed.

Lemma firm_name c : name_char c = true -> firm c = true.
Proof. intros H. unfold firm. rewrite name_not_space by exact H. destruct (Ascii.eqb_spec c "/") as [->|]; [discriminate|reflexivity]. Qed.

Lemma space_nonname c : is_space c = true -> name_char c = false.
Proof. intros H. destruct (name_char c) eqn:E; [|reflexivity]. apply name_not_space in E. congruence. Qed.

Lemma solid_lit s i r : written [Lit s] i r ->
  match chars s with c :: _ => firm c | [] => false end = true -> solid i.
Proof.
  intros W H. apply w_cons_inv in W as (t & j & -> & -> & _). destruct (chars s); [discriminate|exact H].
Qed.

Lemma nonname_lit s i r : written [Lit s] i r ->
  match chars s with c :: _ => name_char c | [] => true end = false -> nonname i.
Proof.
  intros W H. apply w_cons_inv in W as (t & j & -> & -> & _). destruct (chars s); [discriminate|].
  cbn. unfold nonname. cbn. congruence.
Qed.

Lemma nonname_sp i j : written [Sp0] i j -> nonname j -> nonname i.
Proof.
  intros W N. apply w_cons_inv in W as (t & k & -> & S & W). apply w_nil_inv in W as ->.
  destruct S as [|c t Hc _]; [exact N|]. cbn. unfold nonname. cbn. rewrite space_nonname by exact Hc. discriminate.
Qed.
Lemma nonname_sp1 i j : written [Sp1] i j -> nonname i.
Proof.
  intros W. apply w_cons_inv in W as (t & k & -> & [S NE] & W).
  destruct S as [|c t Hc _]; [congruence|]. cbn. unfold nonname. cbn. rewrite space_nonname by exact Hc. discriminate.
Qed.
Lemma nonname_bl i j : written [Bl] i j -> nonname j -> nonname i.
Proof.
  intros W N. apply w_cons_inv in W as (t & k & -> & S & W). apply w_nil_inv in W as ->.
  destruct S as [|c t Hc _|b t _ _]; [exact N| |]; cbn; unfold nonname; cbn.
  - rewrite space_nonname by exact Hc. discriminate.
  - discriminate.
Qed.

Lemma good_name_start x : good_name x -> exists c t, chars x = c :: t /\ name_start c = true /\
  Forall (fun c => name_char c = true) (c :: t).
Proof.
  intros [H _]. destruct (chars x) as [|c t]; [contradiction|]. destruct H as [H F].
  exists c, t. repeat split; auto. constructor; [now apply name_start_char|exact F].
Qed.

Lemma good_name_chars x : good_name x -> Forall (fun c => name_char c = true) (chars x).
Proof. intros H. apply good_name_start in H as (c & t & -> & _ & F). exact F. Qed.

Lemma solid_name x i r : good_name x -> written [Name x] i r -> solid i.
Proof.
  intros G W. apply w_cons_inv in W as (t & j & -> & [-> _] & _).
  apply good_name_start in G as (c & u & -> & S & _). cbn. apply firm_name, name_start_char, S.
Qed.

(** ** Atoms *)
Lemma tag_r s i r : written [Lit s] i r -> tag s i = POk tt r.
Proof.
  intros W. apply w_cons_inv in W as (t & j & -> & -> & W). apply w_nil_inv in W as ->. apply tag_run.
Qed.
Lemma tag_e s i r : written [Lit s] i r -> eats (tag s) i r.
Proof. intros W. eapply eats_run, tag_r, W. Qed.
Lemma ms0_e i r : written [Sp0] i r -> solid r -> eats multispace0 i r.
Proof.
  intros W S. apply w_cons_inv in W as (t & j & -> & F & W). apply w_nil_inv in W as ->.
  eapply eats_run. apply take_while0_run; [exact F|now apply solid_space].
Qed.
Lemma ms1_e i r : written [Sp1] i r -> solid r -> eats multispace1 i r.
Proof.
  intros W S. apply w_cons_inv in W as (t & j & -> & [F N] & W). apply w_nil_inv in W as ->.
  eapply eats_run. apply take_while1_run; [exact F|exact N|now apply solid_space].
Qed.

Lemma take_until_run b r : ~ infix_of (chars "*/") b ->
  take_until "*/" (b ++ chars "*/" ++ r) = POk b (chars "*/" ++ r).
Proof.
  (* the first occurrence cannot overlap the end of b unless it starts there *)
  induction b as [|c b IH]; intros N.
  - cbn [app]. destruct (chars "*/" ++ r) eqn:E; [discriminate|]. cbn [take_until].
    rewrite <- E, strip_app. reflexivity.
  - cbn [app take_until].
    destruct (strip (chars "*/") (c :: b ++ chars "*/" ++ r)) eqn:S.
    + exfalso. apply strip_some in S. cbn in S. injection S as -> S.
      destruct b as [|d b]; cbn in S; [discriminate|]. injection S as -> _.
      apply N. exists [], b. reflexivity.
    + rewrite IH; [reflexivity|]. intros (p & q & ->). apply N. exists (c :: p), q. reflexivity.
Qed.

Lemma comment_run b s r : ~ infix_of (chars "*/") b -> spaces s -> ~ starts is_space r ->
  comment (chars "/*" ++ b ++ chars "*/" ++ s ++ r) = POk b r.
Proof.
  intros N S R. unfold comment. eapply terminated_run.
  - eapply delimited_run; [eapply eats_run, tag_run|now apply take_until_run|eapply eats_run, tag_run].
  - eapply eats_run. now apply take_while0_run.
Qed.

Lemma comment_solid r : solid r -> comment r = PErr.
Proof.
  intros S. unfold comment. apply terminated_err1, delimited_err1, tag_err.
  destruct r as [|c r]; [reflexivity|]. cbn in S. unfold firm in S. change (chars "/*") with ["/"%char; "*"%char].
  cbn [strip]. rewrite Ascii.eqb_sym. destruct (Ascii.eqb c "/"); [|reflexivity].
  rewrite andb_false_r in S. discriminate.
Qed.

(** a blank text is white space, then comments each followed by white space *)
Lemma blank_split t : blank t -> exists s u, t = s ++ u /\ spaces s /\ (u = [] \/ starts (fun c => Ascii.eqb c "/") u) /\
  forall r, solid r -> exists l, many comment l (u ++ r) r /\ (u <> [] -> l <> []).
Proof.
  induction 1 as [|c t Hc _ (s & u & -> & Ss & Su & M)|b t Nb _ (s & u & -> & Ss & Su & M)].
  - exists [], []. repeat split; auto; [constructor|]. intros r R. exists []. split; [|congruence].
    constructor. now apply comment_solid.
  - exists (c :: s), u. repeat split; auto. now constructor.
  - exists [], (chars "/*" ++ b ++ chars "*/" ++ s ++ u). split; [reflexivity|]. split; [constructor|].
    split; [now right|]. intros r R. destruct (M r R) as (l & Ml & _). exists (b :: l).
    split; [|discriminate].
    replace ((chars "/*" ++ b ++ chars "*/" ++ s ++ u) ++ r)
      with (chars "/*" ++ b ++ chars "*/" ++ s ++ (u ++ r)) by now rewrite <- !app_assoc.
    econstructor; [apply comment_run; [exact Nb|exact Ss|]| |exact Ml].
    + destruct Su as [->|Su]; [now apply solid_space|]. destruct u as [|d u]; [contradiction|].
      cbn in *. apply Ascii.eqb_eq in Su as ->. discriminate.
    + rewrite !app_length. cbn. lia.
Qed.

Lemma comment0_e i r : written [Bl] i r -> solid r -> eats comment0 i r.
Proof.
  intros W S. apply w_cons_inv in W as (t & j & -> & B & W). apply w_nil_inv in W as ->.
  apply blank_split in B as (s & u & -> & Ss & Su & M). destruct (M r S) as (l & Ml & Nl).
  rewrite <- app_assoc.
  assert (E : eats (opt (many1 comment)) (u ++ r) r).
  { destruct u as [|d u].
    - eapply eats_run, opt_err, many1_err, comment_solid, S.
    - destruct l as [|x l]; [exfalso; now apply Nl|]. inversion Ml; subst.
      eapply eats_run, opt_run, many1_run; eassumption. }
  destruct E as [o E]. exists o. unfold comment0. eapply preceded_run; [|exact E].
  eapply eats_run, take_while0_run; [exact Ss|].
  destruct Su as [->|Su]; [now apply solid_space|]. destruct u as [|d u]; [contradiction|].
  cbn in *. apply Ascii.eqb_eq in Su as ->. discriminate.
Qed.

Lemma comment0_solid i : solid i -> eats comment0 i i.
Proof. intros S. apply comment0_e; [|exact S]. change i with ([] ++ i) at 1. apply w_one. constructor. Qed.
Lemma ms0_solid i : solid i -> eats multispace0 i i.
Proof. intros S. apply ms0_e; [|exact S]. change i with ([] ++ i) at 1. apply w_one. constructor. Qed.

(** ** Names *)
Lemma name_part_run t r : Forall (fun c => name_char c = true) t -> nonname r ->
  exists l, many name_part l (t ++ r) r.
Proof.
  intros F N. remember (length t) as k eqn:K. revert t K F.
  induction k as [k IH] using (well_founded_induction lt_wf). intros t K F.
  destruct t as [|c t].
  - exists []. constructor. cbn. unfold name_part, alt. cbn [fold_right].
    rewrite por_next; [rewrite por_next; [reflexivity|]|].
    + apply pmap_err, tag_err. destruct r as [|c r]; [reflexivity|]. change (chars "_") with ["_"%char].
      cbn [strip]. rewrite Ascii.eqb_sym. destruct (Ascii.eqb_spec c "_") as [->|]; [|reflexivity].
      exfalso. apply N. reflexivity.
    + apply take_while1_err. intros S. apply N. destruct r as [|c r]; [exact S|]. cbn in *. now apply alpha_name.
  - inversion F as [|? ? Hc Ft]; subst. destruct (is_alphanum c) eqn:A.
    + destruct (span is_alphanum (c :: t)) as [a b] eqn:S.
      pose proof S as S'. apply span_ok in S as (E & Fa & Nb).
      destruct a as [|c' a]; [cbn in E; subst b; cbn in Nb; congruence|].
      cbn in E. injection E as <- E. subst t.
      assert (Fb : Forall (fun c => name_char c = true) b) by (apply Forall_app in Ft; tauto).
      destruct (IH (length b)) with (t := b) as [l M]; auto.
      { cbn. rewrite app_length. lia. }
      exists ((c :: a) :: l). econstructor; [| |exact M].
      * cbn [app]. rewrite <- app_assoc. change (c :: a ++ b ++ r) with ((c :: a) ++ b ++ r).
        unfold name_part, alt. cbn [fold_right]. apply por_run. apply take_while1_run; [exact Fa|discriminate|].
        destruct b as [|d b]; [|exact Nb]. cbn [app]. intros S. apply N.
        destruct r as [|e r]; [exact S|]. cbn in *. now apply alpha_name.
      * cbn. rewrite !app_length. lia.
    + assert (U : c = "_"%char).
      { unfold name_char in Hc. rewrite A in Hc. now apply Ascii.eqb_eq in Hc. }
      subst c. destruct (IH (length t)) with (t := t) as [l M]; auto.
      exists (chars "_" :: l). econstructor; [| |exact M]; [reflexivity|cbn; lia].
Qed.

Definition raw_name : nparser text := recognize (pair name_head (many0 name_part)).

Lemma raw_name_run c t r : name_start c = true -> Forall (fun c => name_char c = true) t -> nonname r ->
  raw_name (c :: t ++ r) = POk (c :: t) r.
Proof.
  intros Hc Ft N. unfold raw_name.
  assert (H : exists x, pair name_head (many0 name_part) (c :: t ++ r) = POk x r).
  { destruct (is_alpha c) eqn:A.
    - destruct (span is_alpha t) as [a b] eqn:S. apply span_ok in S as (-> & Fa & Nb).
      apply Forall_app in Ft as [_ Fb]. destruct (name_part_run Fb N) as [l M].
      exists (c :: a, l). eapply pair_run; [|apply many0_run, M].
      rewrite <- app_assoc. change (c :: a ++ b ++ r) with ((c :: a) ++ b ++ r).
      unfold name_head, alt. cbn [fold_right]. apply por_run. apply take_while1_run; [now constructor|discriminate|].
      destruct b as [|d b]; [|exact Nb]. cbn [app]. intros S. apply N.
      destruct r as [|e r]; [exact S|]. cbn in *. apply alpha_name. unfold is_alphanum. now rewrite S.
    - unfold name_start in Hc. rewrite A in Hc. apply Ascii.eqb_eq in Hc as ->.
      destruct (name_part_run Ft N) as [l M]. exists (chars "_", l).
      eapply pair_run; [reflexivity|apply many0_run, M]. }
  destruct H as [x H]. change (c :: t ++ r) with ((c :: t) ++ r) in *.
  eapply recognize_app; [exact H|reflexivity].
Qed.

Lemma raw_name_err i : ~ starts name_start i -> raw_name i = PErr.
Proof.
  intros N. unfold raw_name, recognize. rewrite pair_err1; [reflexivity|].
  unfold name_head, alt. cbn [fold_right]. rewrite por_next; [rewrite por_next; [reflexivity|]|].
  - apply pmap_err, tag_err. destruct i as [|c r]; [reflexivity|]. change (chars "_") with ["_"%char].
    cbn [strip]. rewrite Ascii.eqb_sym. destruct (Ascii.eqb_spec c "_") as [->|]; [|reflexivity].
    exfalso. apply N. reflexivity.
  - apply take_while1_err. intros S. apply N. destruct i as [|c r]; [exact S|]. cbn in *.
    unfold name_start. now rewrite S.
Qed.

Lemma identifier_unfold i : identifier i = pmap (verify raw_name (fun i => negb (xdr_reserved (str i)))) str i.
Proof. reflexivity. Qed.

Lemma identifier_run x r : good_name x -> nonname r -> identifier (chars x ++ r) = POk x r.
Proof.
  intros G N. rewrite identifier_unfold. pose proof G as [_ K].
  apply good_name_start in G as (c & t & E & Hc & F). inversion F as [|? ? _ Ft]; subst.
  assert (R : verify raw_name (fun i => negb (xdr_reserved (str i))) (chars x ++ r) = POk (chars x) r).
  { unfold verify. rewrite E. cbn [app]. rewrite raw_name_run by assumption.
    rewrite <- E, str_chars. destruct (xdr_reserved x) eqn:X; [|reflexivity].
    apply xdr_reserved_in in X. contradiction. }
  rewrite (pmap_run str R). now rewrite str_chars.
Qed.

Lemma identifier_r x i r : good_name x -> written [Name x] i r -> identifier i = POk x r.
Proof.
  intros G W. apply w_cons_inv in W as (t & j & -> & [-> N] & W). apply w_nil_inv in W as ->.
  now apply identifier_run.
Qed.

Lemma identifier_start_err i : ~ starts name_start i -> identifier i = PErr.
Proof.
  intros N. rewrite identifier_unfold. apply pmap_err. unfold verify. now rewrite raw_name_err.
Qed.

Lemma identifier_keyword x c t r : In x keywords -> chars x = c :: t -> name_start c = true ->
  Forall (fun c => name_char c = true) t -> nonname r -> identifier (chars x ++ r) = PErr.
Proof.
  intros K E Hc Ft N. rewrite identifier_unfold. apply pmap_err. unfold verify. rewrite E. cbn [app].
  rewrite raw_name_run by assumption. rewrite <- E, str_chars. apply xdr_reserved_in in K. now rewrite K.
Qed.

(** ** Numbers *)
Lemma digits_many f t r : Forall (fun c => f c = true) t -> ~ starts f r ->
  exists l, many (take_while1 f) l (t ++ r) r.
Proof.
  intros F N. destruct t as [|c t].
  - exists []. constructor. now apply take_while1_err.
  - exists [c :: t]. econstructor.
    + apply take_while1_run; [exact F|discriminate|exact N].
    + rewrite app_length. cbn. lia.
    + constructor. now apply take_while1_err.
Qed.

Lemma digits1_run f t r : Forall (fun c => f c = true) t -> t <> [] -> ~ starts f r ->
  recognize (many1 (take_while1 f)) (t ++ r) = POk t r.
Proof.
  intros F NE N. eapply recognize_app; [|reflexivity]. eapply many1_run.
  - apply take_while1_run; assumption.
  - constructor. now apply take_while1_err.
Qed.

Lemma nonname_class f r : (forall c, f c = true -> name_char c = true) -> nonname r -> ~ starts f r.
Proof. intros H N S. apply N. destruct r; [exact S|]. cbn in *. auto. Qed.

Lemma digit_name c : is_digit c = true -> name_char c = true.
Proof. unfold name_char, is_alphanum. intros ->. now rewrite orb_true_r. Qed.
Lemma oct_name c : is_oct c = true -> name_char c = true.
Proof. destruct c as [[] [] [] [] [] [] [] []]; intros H; try discriminate H; reflexivity. Qed.
Lemma hex_name c : is_hex c = true -> name_char c = true.
Proof. destruct c as [[] [] [] [] [] [] [] []]; intros H; try discriminate H; reflexivity. Qed.

Lemma one_of_digit d : is_digit d = true -> d <> "0"%char ->
  existsb (Ascii.eqb d) (chars "1234567879") = true.
Proof.
  intros H N. destruct d as [[] [] [] [] [] [] [] []]; try discriminate H; try reflexivity. congruence.
Qed.

Lemma one_of_err c i : is_digit c = false \/ c = "0"%char -> one_of "1234567879" (c :: i) = PErr.
Proof.
  intros H. cbn [one_of]. destruct (existsb (Ascii.eqb c) (chars "1234567879")) eqn:E; [|reflexivity].
  apply nonzero_digit in E as [E1 E2]. destruct H; congruence.
Qed.

Lemma decimal_nonzero_run m d t r : (m = [] \/ m = chars "-") -> is_digit d = true -> d <> "0"%char ->
  Forall (fun c => is_digit c = true) t -> nonname r ->
  decimal_nonzero ((m ++ d :: t) ++ r) = POk (Decimal (str (m ++ d :: t))) r.
Proof.
  intros Hm Hd Nd Ft N. unfold decimal_nonzero.
  apply pmap_run with (f := fun v => Decimal (str v)) (a := m ++ d :: t).
  destruct (digits_many Ft (nonname_class digit_name N)) as [l M].
  assert (Ho : one_of "1234567879" (d :: t ++ r) = POk d (t ++ r)).
  { cbn [one_of]. now rewrite one_of_digit. }
  destruct Hm as [-> | ->]; (eapply recognize_app; [|reflexivity]); rewrite <- app_assoc; cbn [app].
  - eapply pair_run; [apply opt_err|eapply pair_run; [exact Ho|apply many0_run, M]].
    apply tag_err. change (chars "-") with ["-"%char]. cbn [strip].
    destruct (Ascii.eqb_spec "-" d) as [<-|]; [discriminate|reflexivity].
  - eapply pair_run; [apply opt_run, tag_run|eapply pair_run; [exact Ho|apply many0_run, M]].
Qed.

Lemma decimal_zero_err i : decimal_nonzero (chars "0" ++ i) = PErr.
Proof. reflexivity. Qed.

Lemma strip_neq s c i : match s with d :: _ => Ascii.eqb d c = false | [] => False end -> strip s (c :: i) = None.
Proof. destruct s as [|d s]; [contradiction|]. cbn. now intros ->. Qed.

Lemma constant_run c r : good_constant c -> nonname r ->
  constant_p (chars (constant_text c) ++ r) = POk c r.
Proof.
  intros G N. unfold constant_p, alt. cbn [fold_right]. destruct c as [s|s|s]; cbn [constant_text].
  - destruct G as [-> |(m & d & t & E & Hm & Hd & Nd & Ft)].
    + rewrite por_next by apply decimal_zero_err. rewrite por_next.
      2:{ apply pmap_err. destruct r as [|c r]; [reflexivity|]. destruct (Ascii.eqb_spec "x" c) as [<-|X].
          - exfalso. apply N. reflexivity.
          - apply preceded_err1, tag_err. change (chars "0x") with ["0"%char; "x"%char].
            change (chars "0") with ["0"%char]. cbn [app strip]. rewrite Ascii.eqb_refl.
            destruct (Ascii.eqb_spec "x" c); [congruence|reflexivity]. }
      rewrite por_next.
      2:{ apply pmap_err. eapply preceded_err2; [eapply eats_run, tag_run|].
          unfold recognize. rewrite many1_err; [reflexivity|]. apply take_while1_err.
          exact (nonname_class oct_name N). }
      apply por_run. exact (pmap_run _ (tag_run "0" r)).
    + apply por_run. rewrite E. replace (Decimal s) with (Decimal (str (m ++ d :: t))).
      * now apply decimal_nonzero_run.
      * now rewrite <- E, str_chars.
  - destruct G as [NE F]. rewrite por_next.
    2:{ apply decimal_zero_err. }
    apply por_run. change (chars ("0x" ++ s)) with (chars "0x" ++ chars s). rewrite <- app_assoc.
    rewrite <- (str_chars s) at 2. apply pmap_run with (f := fun v => Hex (str v)).
    eapply preceded_run; [eapply eats_run, tag_run|]. apply digits1_run; [exact F| |exact (nonname_class hex_name N)].
    intros E. apply NE. rewrite <- (str_chars s), E. reflexivity.
  - destruct G as [NE F]. assert (NE' : chars s <> []).
    { intros E. apply NE. rewrite <- (str_chars s), E. reflexivity. }
    change (chars ("0" ++ s)) with (chars "0" ++ chars s). rewrite <- app_assoc.
    rewrite por_next by apply decimal_zero_err. rewrite por_next.
    2:{ apply pmap_err, preceded_err1, tag_err. destruct (chars s) as [|c t]; [congruence|].
        inversion F as [|? ? Hc _]; subst. change (chars "0x") with ["0"%char; "x"%char].
        change (chars "0") with ["0"%char]. cbn [app strip]. rewrite Ascii.eqb_refl.
        destruct (Ascii.eqb_spec "x" c) as [<-|]; [discriminate|reflexivity]. }
    apply por_run.
    rewrite <- (str_chars s) at 2. apply pmap_run with (f := fun v => Octal (str v)).
    eapply preceded_run; [eapply eats_run, tag_run|]. apply digits1_run; [exact F|exact NE'|exact (nonname_class oct_name N)].
Qed.

Lemma constant_err c i : is_digit c = false -> c <> "-"%char -> constant_p (c :: i) = PErr.
Proof.
  intros D M. unfold constant_p, alt. cbn [fold_right].
  assert (Z : "0"%char <> c) by (intros <-; discriminate).
  assert (T : forall s t, tag (String "0" s) (c :: t) = PErr).
  { intros s t. apply tag_err. change (chars (String "0" s)) with ("0"%char :: chars s). cbn [strip].
    destruct (Ascii.eqb_spec "0" c); [congruence|reflexivity]. }
  rewrite !por_next; [reflexivity|..].
  - apply pmap_err, T.
  - apply pmap_err, preceded_err1, T.
  - apply pmap_err, preceded_err1, T.
  - unfold decimal_nonzero. apply pmap_err. unfold recognize.
    rewrite (@pair_err2 _ _ (opt (tag "-")) _ _ (c :: i)); [reflexivity| |].
    + eapply eats_run, opt_err, tag_err. change (chars "-") with ["-"%char]. cbn [strip].
      destruct (Ascii.eqb_spec "-" c); [congruence|reflexivity].
    + apply pair_err1. apply one_of_err. now left.
Qed.

Lemma name_start_not_digit c : name_start c = true -> is_digit c = false /\ c <> "-"%char.
Proof.
  intros H. split; [|intros ->; discriminate]. destruct (is_digit c) eqn:E; [|reflexivity]. exfalso. char_solve; lia.
Qed.

Lemma value_run v r : good_value v -> nonname r -> value_p (chars (value_text v) ++ r) = POk v r.
Proof.
  intros G N. unfold value_p, alt. cbn [fold_right]. destruct v as [c|x]; cbn [value_text].
  - apply por_run. apply pmap_run with (f := VConst). now apply constant_run.
  - rewrite por_next.
    + apply por_run. apply pmap_run with (f := VIdent). now apply identifier_run.
    + apply pmap_err. cbn in G. apply good_name_start in G as (c & t & -> & Hc & _). cbn [app].
      apply name_start_not_digit in Hc as [D M]. now apply constant_err.
Qed.

Lemma value_r v i r : good_value v -> written (w_value v) i r -> nonname r -> value_p i = POk v r.
Proof.
  intros G W N. apply w_cons_inv in W as (t & j & -> & -> & W). apply w_nil_inv in W as ->.
  now apply value_run.
Qed.

Lemma value_err c i : is_digit c = false -> c <> "-"%char -> name_start c = false -> value_p (c :: i) = PErr.
Proof.
  intros D M S. unfold value_p, alt. cbn [fold_right]. rewrite !por_next; [reflexivity|..].
  - apply pmap_err, identifier_start_err. cbn. congruence.
  - apply pmap_err. now apply constant_err.
Qed.

Lemma solid_value v i r : good_value v -> written (w_value v) i r -> solid i.
Proof.
  intros G W. apply w_cons_inv in W as (t & j & -> & -> & _). destruct v as [c|x]; cbn [value_text].
  - destruct c as [s|s|s]; cbn [constant_text].
    + destruct G as [-> |(m & d & t & E & Hm & Hd & _)]; [reflexivity|]. rewrite E.
      destruct Hm as [-> | ->]; [|reflexivity]. cbn. now apply firm_name, digit_name.
    + reflexivity.
    + reflexivity.
  - cbn in G. apply good_name_start in G as (c & t & -> & Hc & _). cbn. now apply firm_name, name_start_char.
Qed.

(** ** Splitting [written] and running step by step *)
Ltac wsplit W :=
  rewrite <- ?app_assoc in W; cbn [app] in W;
  lazymatch type of W with
  | written [] _ _ => apply w_nil_inv in W; subst
  | written [_] _ _ => idtac
  | written (?p :: ?l) _ _ =>
      change (p :: l) with ([p] ++ l) in W;
      let j := fresh "j" in let W1 := fresh "W" in
      apply w_app_inv in W; destruct W as (j & W1 & W); wsplit W
  | written (?l ++ ?m) _ _ =>
      let j := fresh "j" in let W1 := fresh "W" in
      apply w_app_inv in W; destruct W as (j & W1 & W); wsplit W
  | _ => idtac
  end.

Create HintDb first discriminated.
#[export] Hint Extern 1 (solid ?i) =>
  match goal with H : written [Lit _] i _ |- _ => exact (solid_lit H eq_refl) end : first.
#[export] Hint Extern 1 (nonname ?i) =>
  match goal with H : written [Lit _] i _ |- _ => exact (nonname_lit H eq_refl) end : first.
#[export] Hint Extern 1 (nonname ?i) =>
  match goal with H : written [Sp1] i _ |- _ => exact (nonname_sp1 H) end : first.
#[export] Hint Resolve solid_name solid_value nonname_sp nonname_bl : first.

Ltac firsts := solve [eauto 6 with first].

Ltac eat :=
  lazymatch goal with
  | |- eats (pair _ _) _ _ => eapply eats_pair; [eat|eat]
  | |- eats (tag _) _ _ => eapply tag_e; eassumption
  | |- eats multispace0 _ _ => first [eapply ms0_e; [eassumption|firsts]|eapply ms0_solid; firsts]
  | |- eats multispace1 _ _ => eapply ms1_e; [eassumption|firsts]
  | |- eats comment0 _ _ => first [eapply comment0_e; [eassumption|firsts]|eapply comment0_solid; firsts]
  | _ => idtac
  end.

Lemma assign_r a i r : good_assign a -> written (w_assign a) i r -> nonname r -> assign_p i = POk a r.
Proof.
  intros [G1 G2] W N. destruct a as [x v]. cbn [as_name as_value] in *. unfold w_assign in W.
  cbn [as_name as_value] in W. wsplit W. unfold assign_p.
  apply pmap_run with (f := fun '(i, v) => Assign i v) (a := (x, v)).
  eapply pair_run; [eapply identifier_r; eassumption|].
  eapply preceded_run; [eat|]. eapply value_r; eassumption.
Qed.

Lemma solid_assign a i r : good_assign a -> written (w_assign a) i r -> solid i.
Proof. intros [G _] W. unfold w_assign in W. wsplit W. eapply solid_name; eassumption. Qed.
#[export] Hint Resolve solid_assign : first.

Lemma constant_def_r a i r : good_assign a -> written (w_definition (DefConst a)) i r ->
  constant_def i = POk a r.
Proof.
  intros G W. cbn [w_definition] in W. wsplit W. unfold constant_def.
  eapply preceded_run; [eat|]. eapply terminated_run; [eapply assign_r; [eassumption..|firsts]|eat].
Qed.

Lemma tag_first s c i : match chars s with d :: _ => Ascii.eqb d c = false | [] => False end ->
  tag s (c :: i) = PErr.
Proof. intros H. apply tag_err, strip_neq, H. Qed.

(** a fixed word against another one *)
Lemma tag_lit_err s u i r : written [Lit u] i r ->
  (forall r, strip (chars s) (chars u ++ r) = None) -> tag s i = PErr.
Proof.
  intros W H. apply w_cons_inv in W as (t & j & -> & -> & _). apply tag_err, H.
Qed.

Ltac lit_err := eapply tag_lit_err; [eassumption|reflexivity].

Lemma lit_length s i r : written [Lit s] i r -> length i = (length (chars s) + length r)%nat.
Proof.
  intros W. apply w_cons_inv in W as (t & j & -> & -> & W). apply w_nil_inv in W as ->. apply app_length.
Qed.

Ltac lens :=
  repeat match goal with
  | H : written [Lit _] _ _ |- _ => apply lit_length in H; cbn [length list_ascii_of_string plus] in H
  | H : written _ _ _ |- _ => apply w_length in H
  end; cbn [length] in *; lia.

Lemma enum_body_r l i r : l <> [] -> Forall good_assign l -> written (w_enum_body l) i r ->
  enum_body i = POk l r.
Proof.
  intros NE F W. destruct l as [|x l]; [congruence|]. unfold w_enum_body in W. wsplit W.
  assert (S : solid j0).
  { inversion F; subst. destruct l; [eauto with first|].
    change (w_assigns (x :: a :: l)) with (w_assign x ++ [Bl; Lit ","; Bl] ++ w_assigns (a :: l)) in W2.
    wsplit W2. eauto with first. }
  unfold enum_body. eapply delimited_run; [| |eat]; [eapply eats_pair; [eat|eapply comment0_e; eassumption]|].
  clear W0 W1 S i j NE.
  assert (G : exists j', assign_p j0 = POk x j' /\
            many (preceded (pair comment0 (pair (tag ",") comment0)) assign_p) l j' j1).
  { revert x j0 F W2. induction l as [|y l IH]; intros x j0 F W2; inversion F as [|? ? Gx Fl]; subst.
    - exists j1. split; [eapply assign_r; [eassumption..|firsts]|]. constructor.
      apply preceded_err1. eapply pair_err2; [eat|]. apply pair_err1. lit_err.
    - change (w_assigns (x :: y :: l)) with (w_assign x ++ [Bl; Lit ","; Bl] ++ w_assigns (y :: l)) in W2.
      wsplit W2. assert (S : solid j5).
      { inversion Fl; subst. destruct l as [|z l]; [eauto with first|].
        change (w_assigns (y :: z :: l)) with (w_assign y ++ [Bl; Lit ","; Bl] ++ w_assigns (z :: l)) in W2.
        wsplit W2. eauto with first. }
      destruct (IH y j5 Fl W2) as (j' & E & M). exists j. split; [eapply assign_r; [eassumption..|firsts]|].
      assert (E2 : preceded (pair comment0 (pair (tag ",") comment0)) assign_p j = POk y j').
      { eapply preceded_run; [|exact E]. eapply eats_pair; [eat|]. eapply eats_pair; [eat|].
        eapply comment0_e; eassumption. }
      econstructor; [exact E2| |exact M].
      apply shrinks_assign in E. lens. }
  destruct G as (j' & E & M). unfold separated_list1. rewrite (pbind_run _ E).
  apply pmap_run with (f := fun l => x :: l). apply many0_run, M.
Qed.

(** ** Names that are not built-in words *)
Lemma name_prefix x s r r1 : Forall (fun c => name_char c = true) x -> Forall (fun c => name_char c = true) s ->
  nonname r -> nonname r1 -> x ++ r = s ++ r1 -> x = s /\ r = r1.
Proof.
  intros Fx Fs N N1. revert s Fs. induction Fx as [|c x Hc _ IH]; intros s Fs E.
  - destruct Fs as [|d s Hd _]; [auto|]. exfalso. cbn in E. subst r. apply N. exact Hd.
  - destruct Fs as [|d s Hd Fs]; cbn in E.
    + subst r1. exfalso. apply N1. exact Hc.
    + injection E as -> E. destruct (IH s Fs E) as [-> ->]. auto.
Qed.

Lemma space_start_nonname r : starts is_space r -> nonname r.
Proof. destruct r as [|c r]; [contradiction|]. cbn. intros H. unfold nonname. cbn. rewrite space_nonname by exact H. discriminate. Qed.

Lemma ms1_start i a r : multispace1 i = POk a r -> starts is_space i.
Proof.
  intros H. apply take_while1_ok in H as (-> & F & _ & N). destruct F; [congruence|]. assumption.
Qed.

Section TypeNames.
  Variable x : string.
  Variable r : text.
  Hypothesis G : good_name x.
  Hypothesis N : nonname r.

  Lemma kw_space s r1 : Forall (fun c => name_char c = true) (chars s) -> chars x ++ r = chars s ++ r1 ->
    starts is_space r1 -> x = s /\ r = r1.
  Proof.
    intros F E S. apply name_prefix in E as [E ->]; auto using good_name_chars, space_start_nonname.
    split; [now apply chars_inj|reflexivity].
  Qed.

  Lemma kw_ms1 s : Forall (fun c => name_char c = true) (chars s) -> In s keywords ->
    pair (tag s) multispace1 (chars x ++ r) = PErr.
  Proof.
    intros F K. destruct (tag s (chars x ++ r)) as [u r1| |] eqn:E.
    - eapply pair_err2; [eapply eats_run; eassumption|]. apply tag_ok in E. apply take_while1_err. intros S.
      destruct (kw_space F E S) as [-> _]. exact (proj2 G K).
    - now apply pair_err1.
    - exfalso. unfold tag in E. destruct (strip _ _); discriminate.
  Qed.

  Lemma kw_ms1' {B} s (q : nparser B) : Forall (fun c => name_char c = true) (chars s) -> In s keywords ->
    preceded (tag s) (preceded multispace1 q) (chars x ++ r) = PErr.
  Proof.
    intros F K. destruct (tag s (chars x ++ r)) as [u r1| |] eqn:E.
    - eapply preceded_err2; [eapply eats_run; eassumption|]. apply tag_ok in E. apply preceded_err1, take_while1_err. intros S.
      destruct (kw_space F E S) as [-> _]. exact (proj2 G K).
    - now apply preceded_err1.
    - exfalso. unfold tag in E. destruct (strip _ _); discriminate.
  Qed.

  Lemma kw_word s : Forall (fun c => name_char c = true) (chars s) ->
    (x = s -> ~ starts is_space r) -> word_p s (chars x ++ r) = PErr.
  Proof.
    intros F K. unfold word_p. destruct (tag s (chars x ++ r)) as [u r1| |] eqn:E.
    - eapply terminated_err2; [exact E|]. apply tag_ok in E. apply peek_space_err. intros S.
      destruct (kw_space F E S) as [X ->]. exact (K X S).
    - now apply terminated_err1.
    - exfalso. unfold tag in E. destruct (strip _ _); discriminate.
  Qed.
End TypeNames.

Ltac names := repeat constructor.
Ltac inkw := cbn; tauto.

(** ** Types *)
Lemma word_r s i r : written [Word s] i r -> word_p s i = POk tt r.
Proof.
  intros W. apply w_cons_inv in W as (t & j & -> & [-> S] & W). apply w_nil_inv in W as ->.
  destruct (peek_space S) as [w E]. unfold word_p. eapply terminated_run; [apply tag_run|]. now exists w.
Qed.

Lemma unsigned_run s i r : written [Lit "unsigned"; Sp1; Word s] i r ->
  match chars s with c :: _ => firm c | [] => false end = true -> unsigned_p s i = POk tt r.
Proof.
  intros W F. wsplit W. unfold unsigned_p. eapply preceded_run; [eat|]. eapply preceded_run; [|apply word_r, W].
  eapply ms1_e; [eassumption|]. apply w_cons_inv in W as (t & j1 & -> & [-> _] & _).
  destruct (chars s); [discriminate|exact F].
Qed.

Lemma word_word_err s u i r : written [Word u] i r ->
  (forall r, strip (chars s) (chars u ++ r) = None) -> word_p s i = PErr.
Proof.
  intros W H. apply w_cons_inv in W as (t & j & -> & [-> _] & _). apply terminated_err1, tag_err, H.
Qed.
Lemma word_unsigned_err s u i r : written [Word u] i r ->
  (forall r, strip (chars "unsigned") (chars u ++ r) = None) -> unsigned_p s i = PErr.
Proof.
  intros W H. apply w_cons_inv in W as (t & j & -> & [-> _] & _). apply preceded_err1, tag_err, H.
Qed.
Lemma lit_word_err s u i r : written [Lit u] i r ->
  (forall r, strip (chars s) (chars u ++ r) = None) -> word_p s i = PErr.
Proof.
  intros W H. apply terminated_err1. eapply tag_lit_err; eassumption.
Qed.
Lemma lit_unsigned_err s u i r : written [Lit u] i r ->
  (forall r, strip (chars "unsigned") (chars u ++ r) = None) -> unsigned_p s i = PErr.
Proof.
  intros W H. apply preceded_err1. eapply tag_lit_err; eassumption.
Qed.
(** "unsigned s" against "unsigned u" *)
Lemma unsigned_word_err s u i j k r : written [Lit "unsigned"] i j -> written [Sp1] j k -> written [Word u] k r ->
  match chars u with c :: _ => firm c | [] => false end = true ->
  (forall r, strip (chars s) (chars u ++ r) = None) -> unsigned_p s i = PErr.
Proof.
  intros W1 W2 W3 F H. unfold unsigned_p. eapply preceded_err2; [eat|]. eapply preceded_err2.
  - eapply ms1_e; [eassumption|]. apply w_cons_inv in W3 as (t & j1 & -> & [-> _] & _).
    destruct (chars u); [discriminate|exact F].
  - apply w_cons_inv in W3 as (t & j1 & -> & [-> _] & _). apply terminated_err1, tag_err, H.
Qed.
(** "unsigned" alone *)
Lemma unsigned_alone_err s r :
  (forall w r', r = w ++ chars s ++ r' -> w <> [] -> spaces w -> ~ starts is_space r') ->
  unsigned_p s (chars "unsigned" ++ r) = PErr.
Proof.
  intros H. unfold unsigned_p. eapply preceded_err2; [eapply eats_run, tag_run|].
  destruct (multispace1 r) as [w r1| |] eqn:E.
  - eapply preceded_err2; [eapply eats_run; eassumption|]. apply take_while1_ok in E as (-> & F & _ & NE).
    destruct (tag s r1) as [u r2| |] eqn:T.
    + eapply terminated_err2; [exact T|]. apply tag_ok in T as ->. apply peek_space_err.
      exact (H w r2 eq_refl NE F).
    + now apply terminated_err1.
    + exfalso. unfold tag in T. destruct (strip _ _); discriminate.
  - now apply preceded_err1.
  - exfalso. revert E. apply (@nf_tw1 (S (length r)) is_space). lia.
Qed.
Lemma unsigned_other_err s r : (forall r, strip (chars s) (chars "unsigned" ++ r) = None) ->
  word_p s (chars "unsigned" ++ r) = PErr.
Proof. intros H. apply terminated_err1, tag_err, H. Qed.

Lemma unsigned_start i r : written [Unsigned] i r -> exists k, i = chars "unsigned" ++ k.
Proof.
  intros W. apply w_cons_inv in W as (t & j & -> & [_ [(w & -> & _)|[-> _]]] & _).
  - exists ((w ++ chars "int") ++ j). now rewrite <- !app_assoc.
  - now exists j.
Qed.

(** first characters of types and declarations *)
Lemma solid_word s i r : written [Word s] i r ->
  match chars s with c :: _ => firm c | [] => false end = true -> solid i.
Proof.
  intros W H. apply w_cons_inv in W as (t & j & -> & [-> _] & _). destruct (chars s); [discriminate|exact H].
Qed.

Lemma solid_type t i r : good_type t -> written (w_type t) i r -> solid i.
Proof.
  intros G W. destruct t as [[]|[]| | | | |l|l|u|x|[]|[]|]; cbn [w_type w_unsigned] in W;
    try (exact (solid_word W eq_refl)); try (exact (solid_lit W eq_refl));
    try (wsplit W; match goal with H : written [Lit _] i _ |- _ => exact (solid_lit H eq_refl) end).
  - apply unsigned_start in W as [k ->]. reflexivity.
  - apply w_cons_inv in W as (t & j & -> & [-> _] & _). cbn in G.
    apply good_name_start in G as (c & t & -> & Hc & _). cbn. now apply firm_name, name_start_char.
Qed.

Lemma solid_decl d i r : good_decl d -> written (w_decl d) i r -> solid i.
Proof.
  intros G W. destruct d; cbn [w_decl good_decl] in *; wsplit W;
    try (match goal with H : written [Lit _] i _ |- _ => exact (solid_lit H eq_refl) end);
    destruct G as [G _]; eapply solid_type; eassumption.
Qed.
#[export] Hint Resolve solid_type solid_decl : first.

(** not one of "[" and "<" *)
Definition dstop (i : text) : Prop :=
  match i with c :: _ => Ascii.eqb "[" c = false /\ Ascii.eqb "<" c = false | [] => True end.

Lemma dstop_lit s i r : written [Lit s] i r ->
  match chars s with c :: _ => negb (Ascii.eqb "[" c) && negb (Ascii.eqb "<" c) | [] => false end = true -> dstop i.
Proof.
  intros W H. apply w_cons_inv in W as (t & j & -> & -> & _). destruct (chars s); [discriminate|].
  cbn [dstop app]. apply andb_true_iff in H as [A B]. split; now apply negb_true_iff.
Qed.
Lemma dstop_bl i j : written [Bl] i j -> dstop j -> dstop i.
Proof.
  intros W N. apply w_cons_inv in W as (t & k & -> & S & W). apply w_nil_inv in W as ->.
  destruct S as [|c t Hc _|b t _ _]; [exact N| |]; cbn [dstop app].
  - split; [destruct (Ascii.eqb_spec "[" c) as [<-|]|destruct (Ascii.eqb_spec "<" c) as [<-|]];
      first [discriminate Hc|reflexivity].
  - split; reflexivity.
Qed.
#[export] Hint Extern 1 (dstop ?i) =>
  match goal with H : written [Lit _] i _ |- _ => exact (dstop_lit H eq_refl) end : first.
#[export] Hint Resolve dstop_bl : first.

Lemma dstop_tags i : dstop i -> tag "[" i = PErr /\ tag "<" i = PErr.
Proof.
  destruct i as [|c i]; [split; reflexivity|]. intros [A B]. split; apply tag_first; assumption.
Qed.

(** the fixed words that start other declarations do not start a type *)
Lemma type_not_kw s t i r : good_type t -> t <> TsVoid -> written (w_type t) i r ->
  s = "opaque"%string \/ s = "string"%string -> pair (tag s) multispace1 i = PErr.
Proof.
  intros G NV W Hs.
  assert (K : In s keywords) by (destruct Hs as [-> | ->]; inkw).
  assert (F : Forall (fun c => name_char c = true) (chars s)) by (destruct Hs as [-> | ->]; names).
  destruct t as [[]|[]| | | | |l|l|u|x|[]|[]|]; cbn [w_type w_unsigned] in W; try congruence;
    try (apply pair_err1; apply w_cons_inv in W as (t & j & -> & [-> _] & _); destruct Hs as [-> | ->]; reflexivity);
    try (wsplit W; apply pair_err1; destruct Hs as [-> | ->]; lit_err).
  - apply unsigned_start in W as [k ->]. apply pair_err1. destruct Hs as [-> | ->]; reflexivity.
  - apply w_cons_inv in W as (t & j & -> & (-> & N & _) & _). now apply kw_ms1.
Qed.

Lemma strip_none_app s x r : Forall (fun c => name_char c = true) s -> nonname r -> strip s x = None -> strip s (x ++ r) = None.
Proof.
  intros F N. revert x. induction F as [|c s Hc F IH]; intros x E; [discriminate|].
  destruct x as [|d x]; cbn in *.
  - destruct r as [|d r]; [reflexivity|]. destruct (Ascii.eqb_spec c d) as [->|]; [|reflexivity].
    exfalso. apply N. exact Hc.
  - destruct (Ascii.eqb c d); auto.
Qed.

Lemma type_not_void t i r : no_void_prefix t -> written (w_type t) i r -> tag "void" i = PErr.
Proof.
  intros G W.
  destruct t as [[]|[]| | | | |l|l|u|x|[]|[]|]; cbn [w_type w_unsigned] in W; try contradiction;
    try (apply w_cons_inv in W as (t & j & -> & [-> _] & _); reflexivity);
    try (wsplit W; lit_err).
  - apply unsigned_start in W as [k ->]. reflexivity.
  - apply w_cons_inv in W as (t & j & -> & (-> & N & _) & _). apply tag_err. apply strip_none_app; [names|exact N|exact G].
Qed.

Lemma sp1_sp0 i r : written [Sp1] i r -> written [Sp0] i r.
Proof.
  intros W. apply w_cons_inv in W as (t & j & -> & [S _] & W). apply w_nil_inv in W as ->. now apply w_one.
Qed.

(** ** Names that begin with "case" *)
Lemma name_prefix_of s x r r1 : Forall (fun c => name_char c = true) s -> nonname r ->
  x ++ r = s ++ r1 -> exists y, x = s ++ y /\ r1 = y ++ r.
Proof.
  intros F N. revert x. induction F as [|c s Hc F IH]; intros x E.
  - exists x. auto.
  - destruct x as [|d x]; cbn in E.
    + subst r. exfalso. apply N. exact Hc.
    + injection E as -> E. destruct (IH x E) as (y & -> & ->). exists y. auto.
Qed.

Lemma value_text_chars v c t : good_value v -> chars (value_text v) = c :: t -> c <> "-"%char ->
  Forall (fun c => name_char c = true) (chars (value_text v)).
Proof.
  intros G E M. destruct v as [k|x]; cbn [value_text] in *.
  - destruct k as [s|s|s]; cbn [constant_text] in *.
    + destruct G as [-> |(m & d & u & Es & Hm & Hd & _ & Fu)]; [names|].
      rewrite Es in *. destruct Hm as [-> | ->].
      * cbn. constructor; [now apply digit_name|]. eapply Forall_impl; [|exact Fu]. exact digit_name.
      * cbn in E. injection E as <- _. congruence.
    + destruct G as [_ F]. change (chars ("0x" ++ s)) with ("0"%char :: "x"%char :: chars s).
      constructor; [reflexivity|]. constructor; [reflexivity|]. eapply Forall_impl; [|exact F]. exact hex_name.
    + destruct G as [_ F]. change (chars ("0" ++ s)) with ("0"%char :: chars s).
      constructor; [reflexivity|]. eapply Forall_impl; [|exact F]. exact oct_name.
  - now apply good_name_chars.
Qed.

Lemma value_text_nonempty v : good_value v -> chars (value_text v) <> [].
Proof.
  intros G E. destruct v as [k|x]; cbn [value_text] in *.
  - destruct k as [s|s|s]; cbn [constant_text] in *; try discriminate.
    destruct G as [-> |(m & d & u & Es & _)]; [discriminate|]. rewrite Es in E. destruct m; discriminate.
  - apply good_name_start in G as (c & t & E2 & _). congruence.
Qed.

Lemma solid_app_name y r : Forall (fun c => name_char c = true) y -> y <> [] -> solid (y ++ r).
Proof. intros F NE. destruct F as [|c y Hc _]; [congruence|]. cbn. now apply firm_name. Qed.

Lemma delimited_err2 {A B C} (p : nparser A) (q : nparser B) (s : nparser C) i j :
  eats p i j -> q j = PErr -> delimited p q s i = PErr.
Proof. intros E F. eapply preceded_err2; [exact E|]. now apply terminated_err1. Qed.
Lemma delimited_err3 {A B C} (p : nparser A) (q : nparser B) (s : nparser C) i j b k :
  eats p i j -> q j = POk b k -> s k = PErr -> delimited p q s i = PErr.
Proof. intros E F G. eapply preceded_err2; [exact E|]. eapply terminated_err2; eassumption. Qed.

Lemma case_label_tname x r k : good_name x -> nonname r -> eats comment0 r k -> tag ":" k = PErr ->
  case_label (chars x ++ r) = PErr.
Proof.
  intros G N E T. pose proof (good_name_chars G) as F.
  assert (Sx : solid (chars x ++ r)).
  { apply solid_app_name; [exact F|]. apply good_name_start in G as (c & t & -> & _). discriminate. }
  unfold case_label.
  destruct (tag "case" (chars x ++ r)) as [u r1| |] eqn:C.
  2:{ apply delimited_err1. eapply pair_err2; [apply comment0_solid, Sx|]. now apply pair_err1. }
  2:{ exfalso. unfold tag in C. destruct (strip _ _); discriminate. }
  assert (C2 : eats (tag "case") (chars x ++ r) r1) by now exists u.
  apply tag_ok in C. apply name_prefix_of in C as (y & Ey & ->); [|names|exact N].
  assert (NE : y <> []).
  { intros ->. apply (proj2 G). replace x with "case"%string; [inkw|]. apply chars_inj. now rewrite Ey. }
  assert (Fy : Forall (fun c => name_char c = true) y) by (rewrite Ey in F; apply Forall_app in F; tauto).
  assert (Pre : eats (pair comment0 (pair (tag "case") comment0)) (chars x ++ r) (y ++ r)).
  { eapply eats_pair; [apply comment0_solid, Sx|]. eapply eats_pair; [exact C2|].
    apply comment0_solid. now apply solid_app_name. }
  destruct (value_p (y ++ r)) as [v r2| |] eqn:V.
  - eapply delimited_err3; [exact Pre|exact V|].
    apply value_w in V as [Gv W]. apply w_cons_inv in W as (t & j & E2 & -> & W). apply w_nil_inv in W as ->.
    assert (Fv : Forall (fun c => name_char c = true) (chars (value_text v))).
    { pose proof (value_text_nonempty Gv) as NV. destruct (chars (value_text v)) as [|c t] eqn:Q; [congruence|].
      rewrite <- Q. eapply value_text_chars; [exact Gv|exact Q|]. intros ->.
      destruct Fy as [|d y Hd _]; [congruence|]. cbn in E2. injection E2 as -> _. discriminate. }
    apply name_prefix_of in E2 as (y2 & -> & ->); [|exact Fv|exact N].
    destruct y2 as [|d y2].
    + eapply pair_err2; [exact E|]. now apply pair_err1.
    + apply Forall_app in Fy as [_ Fy]. eapply pair_err2.
      * apply comment0_solid. apply solid_app_name; [exact Fy|discriminate].
      * apply pair_err1. cbn [app]. apply tag_first. change (chars ":") with [":"%char].
        cbv iota beta. inversion Fy as [|? ? Hd _]; subst. destruct (Ascii.eqb_spec ":" d) as [<-|]; [discriminate|reflexivity].
  - eapply delimited_err2; [exact Pre|exact V].
  - exfalso. revert V. apply (@nf_value (S (length (y ++ r)))). lia.
Qed.

Lemma case_label_other i r s : written [Lit s] i r -> (forall r, strip (chars "case") (chars s ++ r) = None) ->
  match chars s with c :: _ => firm c | [] => false end = true -> case_label i = PErr.
Proof.
  intros W H S. unfold case_label. apply delimited_err1.
  eapply pair_err2; [apply comment0_solid; exact (solid_lit W S)|].
  apply pair_err1. eapply tag_lit_err; eassumption.
Qed.

Lemma case_label_prefix s k : (forall r, strip (chars "case") (chars s ++ r) = None) ->
  match chars s with c :: _ => firm c | [] => false end = true -> case_label (chars s ++ k) = PErr.
Proof.
  intros H S. eapply case_label_other; [|exact H|exact S]. now apply w_one.
Qed.

Lemma case_label_type t i r k : good_type t -> written (w_type t) i r ->
  nonname r -> eats comment0 r k -> tag ":" k = PErr -> case_label i = PErr.
Proof.
  intros G W N E T.
  destruct t as [[]|[]| | | | |l|l|u|x|[]|[]|]; cbn [w_type w_unsigned] in W;
    try (apply w_cons_inv in W as (t & j & -> & [-> _] & _); apply case_label_prefix; reflexivity);
    try (wsplit W; eapply case_label_other; [eassumption|reflexivity|reflexivity]).
  - apply unsigned_start in W as [m ->]. apply case_label_prefix; reflexivity.
  - apply w_cons_inv in W as (t & j & -> & (-> & _ & _) & W). apply w_nil_inv in W as ->.
    eapply case_label_tname; eassumption.
Qed.

Lemma name_tag_err s x i r : good_name x -> written [Name x] i r ->
  match chars s with c :: _ => name_char c | [] => true end = false -> tag s i = PErr.
Proof.
  intros G W H. apply w_cons_inv in W as (t & j & -> & [-> _] & _).
  apply good_name_start in G as (c & t & -> & Hc & _). cbn [app]. apply tag_first.
  destruct (chars s) as [|d u]; [discriminate|]. destruct (Ascii.eqb_spec d c) as [->|]; [|reflexivity].
  apply name_start_char in Hc. congruence.
Qed.

Lemma sp0_blank i r : written [Sp0] i r -> written [Bl] i r.
Proof.
  intros W. apply w_cons_inv in W as (t & j & -> & S & W). apply w_nil_inv in W as ->. apply w_one.
  rewrite <- (app_nil_r t). apply blank_spaces; [exact S|constructor].
Qed.

Lemma case_label_decl d i r : good_decl d -> written (w_decl d) i r -> case_label i = PErr.
Proof.
  intros G W. destruct d; cbn [w_decl good_decl] in *; wsplit W;
    try (eapply case_label_other; [eassumption|reflexivity|reflexivity]).
  all: try (match goal with H : written [Name ?x] _ _ |- _ => assert (G3 : good_name x) by tauto end;
    destruct G as (G1 & G2 & _);
    eapply case_label_type; [exact G1|eassumption|firsts|eapply comment0_e; [apply sp0_blank, sp1_sp0; eassumption|firsts]|];
    eapply name_tag_err; [exact G3|eassumption|reflexivity]).
  destruct G as (G1 & G2 & G3).
  eapply case_label_type; [exact G1|eassumption|firsts|eapply comment0_e; [apply sp0_blank; eassumption|firsts]|].
  lit_err.
Qed.

(** ** Declarations, given a complete type_specifier *)
Section Decl.
  Variable ts : nparser tyspec.
  Variable L : nat.
  Hypothesis ts_r : forall t i r, good_type t -> t <> TsVoid -> written (w_type t) i r ->
    (length i < L)%nat -> ts i = POk t r.
  Hypothesis ts_bad : forall c i, name_start c = false -> (length (c :: i) < L)%nat -> ts (c :: i) = PErr.

  Lemma opt_value_r o i j r : good_opt o -> written (w_opt o) i j -> written [Lit ">"] j r ->
    opt value_p i = POk o j.
  Proof.
    intros G W W2. destruct o as [v|]; cbn [w_opt] in W.
    - apply opt_run. eapply value_r; [exact G|exact W|firsts].
    - apply w_nil_inv in W as ->. apply opt_err.
      apply w_cons_inv in W2 as (t & k & -> & -> & _). now apply value_err.
  Qed.

  Lemma no_void_not t : no_void_prefix t -> t <> TsVoid.
  Proof. now intros H ->. Qed.

  Lemma star_err i j k : written [Sp0] i j -> written [Lit "*"] j k -> preceded multispace1 identifier i = PErr.
  Proof.
    intros W1 W2. apply w_cons_inv in W1 as (t & m & -> & S & W1). apply w_nil_inv in W1 as ->.
    destruct S as [|c t Hc St].
    - apply preceded_err1. cbn [app]. apply take_while1_err.
      apply w_cons_inv in W2 as (t & m & -> & -> & _). cbn. congruence.
    - eapply preceded_err2.
      + eapply ms1_e; [|exact (solid_lit W2 eq_refl)]. apply w_one. split; [now constructor|discriminate].
      + apply w_cons_inv in W2 as (u & m & -> & -> & _). apply identifier_start_err. cbn. congruence.
  Qed.

  Ltac pre_alts :=
    rewrite por_next by (apply pmap_err; eapply type_not_void; eassumption);
    rewrite por_next by (apply pmap_err, pair_err1, preceded_err1; eapply type_not_kw; [eassumption..|auto]);
    rewrite por_next by (apply pmap_err, pair_err1, preceded_err1; eapply type_not_kw; [eassumption..|auto]);
    rewrite por_next by (apply pmap_err, pair_err1, preceded_err1; eapply type_not_kw; [eassumption..|auto]).

  Lemma declaration_r d i r : good_decl d -> written (w_decl d) i r -> dstop r -> (length i < L)%nat ->
    declaration ts i = POk d r.
  Proof.
    intros G W D Len. unfold declaration, alt. cbn [fold_right].
    destruct d as [t x|t x v|t x o|x v|x o|x o|t x|]; cbn [w_decl good_decl] in *; wsplit W.
    - destruct G as (Gt & Gv & Gx). pose proof (no_void_not Gv) as NV.
      pose proof (ts_r Gt NV W0 Len) as E. destruct (dstop_tags D) as [D1 D2].
      assert (I1 : preceded multispace1 identifier j = POk x r).
      { eapply preceded_run; [eat|eapply identifier_r; eassumption]. }
      pre_alts.
      rewrite por_next.
      2:{ apply pmap_err. eapply pair_err2; [eapply eats_run, E|]. eapply pair_err2; [eapply eats_run, I1|].
          now apply delimited_err1. }
      rewrite por_next.
      2:{ apply pmap_err. eapply pair_err2; [eapply eats_run, E|]. eapply pair_err2; [eapply eats_run, I1|].
          now apply delimited_err1. }
      rewrite por_next.
      2:{ apply pmap_err. eapply pair_err2; [eapply eats_run, E|]. apply preceded_err1.
          eapply pair_err2; [eapply ms0_e; [apply sp1_sp0; eassumption|firsts]|]. apply pair_err1.
          eapply name_tag_err; [exact Gx|eassumption|reflexivity]. }
      apply por_run. apply pmap_run with (f := fun '(t, i) => DVariable t i) (a := (t, x)).
      eapply pair_run; [exact E|exact I1].
    - destruct G as (Gt & Gv & Gx & Gl). pose proof (no_void_not Gv) as NV.
      pose proof (ts_r Gt NV W0 Len) as E. pre_alts.
      apply por_run. apply pmap_run with (f := fun '(t, (i, v)) => DFixedArray t i v) (a := (t, (x, v))).
      eapply pair_run; [exact E|]. eapply pair_run.
      + eapply preceded_run; [eat|eapply identifier_r; eassumption].
      + eapply delimited_run; [eat|eapply value_r; [eassumption..|firsts]|eat].
    - destruct G as (Gt & Gv & Gx & Gl). pose proof (no_void_not Gv) as NV.
      pose proof (ts_r Gt NV W0 Len) as E. pre_alts.
      assert (I1 : preceded multispace1 identifier j = POk x j1).
      { eapply preceded_run; [eat|eapply identifier_r; eassumption]. }
      rewrite por_next.
      2:{ apply pmap_err. eapply pair_err2; [eapply eats_run, E|]. eapply pair_err2; [eapply eats_run, I1|].
          apply delimited_err1. lit_err. }
      apply por_run. apply pmap_run with (f := fun '(t, (i, v)) => DVariableArray t i v) (a := (t, (x, o))).
      eapply pair_run; [exact E|]. eapply pair_run; [exact I1|].
      eapply delimited_run; [eat|eapply opt_value_r; eassumption|eat].
    - destruct G as (Gx & Gl). rewrite por_next by (apply pmap_err; lit_err).
      apply por_run. apply pmap_run with (f := fun '(i, v) => DOpaqueFixed i v) (a := (x, v)).
      eapply pair_run.
      + eapply preceded_run; [eat|eapply identifier_r; eassumption].
      + eapply delimited_run; [eat|eapply value_r; [eassumption..|firsts]|eat].
    - destruct G as (Gx & Gl). rewrite por_next by (apply pmap_err; lit_err).
      assert (I1 : preceded (pair (tag "opaque") multispace1) identifier i = POk x j1).
      { eapply preceded_run; [eat|eapply identifier_r; eassumption]. }
      rewrite por_next.
      2:{ apply pmap_err. eapply pair_err2; [eapply eats_run, I1|]. apply delimited_err1. lit_err. }
      apply por_run. apply pmap_run with (f := fun '(i, v) => DOpaqueVariable i v) (a := (x, o)).
      eapply pair_run; [exact I1|]. eapply delimited_run; [eat|eapply opt_value_r; eassumption|eat].
    - destruct G as (Gx & Gl). rewrite por_next by (apply pmap_err; lit_err).
      rewrite por_next by (apply pmap_err, pair_err1, preceded_err1, pair_err1; lit_err).
      rewrite por_next by (apply pmap_err, pair_err1, preceded_err1, pair_err1; lit_err).
      apply por_run. apply pmap_run with (f := fun '(i, v) => DString i v) (a := (x, o)).
      eapply pair_run; [eapply preceded_run; [eat|eapply identifier_r; eassumption]|].
      eapply delimited_run; [eat|eapply opt_value_r; eassumption|eat].
    - destruct G as (Gt & Gv & Gx). pose proof (no_void_not Gv) as NV.
      pose proof (ts_r Gt NV W0 Len) as E. pre_alts.
      rewrite por_next.
      2:{ apply pmap_err. eapply pair_err2; [eapply eats_run, E|]. apply pair_err1. eapply star_err; eassumption. }
      rewrite por_next.
      2:{ apply pmap_err. eapply pair_err2; [eapply eats_run, E|]. apply pair_err1. eapply star_err; eassumption. }
      apply por_run. apply pmap_run with (f := fun '(t, i) => DOption t i) (a := (t, x)).
      eapply pair_run; [exact E|]. eapply preceded_run; [eat|eapply identifier_r; eassumption].
    - apply por_run. exact (pmap_run _ (tag_r W)).
  Qed.

  (** no declaration starts with "}" *)
  Lemma declaration_brace i r : written [Lit "}"] i r -> (length i < L)%nat -> declaration ts i = PErr.
  Proof.
    intros W Len. apply w_cons_inv in W as (t & j & -> & -> & W). apply w_nil_inv in W as ->.
    assert (E : ts (chars "}" ++ r) = PErr) by now apply ts_bad.
    unfold declaration, alt. cbn [fold_right].
    do 4 (rewrite por_next by reflexivity).
    do 4 (rewrite por_next by (apply pmap_err, pair_err1; exact E)). reflexivity.
  Qed.

  Definition w_field (d : decl) : list piece := w_decl d ++ [Bl; Lit ";"; Bl].

  Lemma field_solid d l i r : good_decl d -> written (w_field d ++ l) i r -> solid i.
  Proof. intros G W. unfold w_field in W. wsplit W. eapply solid_decl; eassumption. Qed.

  Lemma fields_r l i j r : Forall good_decl l -> written (flat_map w_field l) i j -> written [Lit "}"] j r ->
    (length i < L)%nat ->
    solid i /\ many (terminated (declaration ts) (pair comment0 (pair (tag ";") comment0))) l i j.
  Proof.
    intros F. revert i. induction F as [|d l G F IH]; intros i W B Len; cbn [flat_map] in W.
    - apply w_nil_inv in W as ->. split; [firsts|]. constructor.
      apply terminated_err1. eapply declaration_brace; eassumption.
    - split; [eapply field_solid; eassumption|].
      unfold w_field at 1 in W. wsplit W.
      assert (Len2 : (length j3 < length i)%nat) by (clear - W0 W1 W2 W3; lens).
      destruct (IH j3 W B) as [S M]; [lia|].
      econstructor; [|exact Len2|exact M].
      eapply terminated_run; [eapply declaration_r; [exact G|eassumption|firsts|exact Len]|]. eat.
  Qed.

  Lemma struct_body_r l i r : good_struct_body l -> written (w_struct_body l) i r -> (length i < L)%nat ->
    struct_body ts i = POk l r.
  Proof.
    intros [NE F] W Len. unfold w_struct_body in W. fold w_field in W. wsplit W.
    destruct (@fields_r l j0 j1 r F W2 W) as [S M]; [clear - W0 W1 Len; lens|].
    unfold struct_body. eapply delimited_run; [|inversion M as [|a l' i0 i' r0 E _ M']; subst; [congruence|]|].
    - eapply eats_pair; [eat|]. eapply comment0_e; eassumption.
    - eapply many1_run; [exact E|exact M'].
    - eat.
  Qed.

  (** ** Unions *)
  Lemma label_r v i r : good_value v -> written (w_label v) i r -> solid r -> case_label i = POk v r.
  Proof.
    intros G W S. unfold w_label in W. wsplit W. unfold case_label.
    eapply delimited_run; [eat|eapply value_r; [exact G|eassumption|firsts]|].
    eapply eats_pair; [eat|]. eapply eats_pair; [eat|]. eapply comment0_e; eassumption.
  Qed.

  Lemma solid_label v i r : written (w_label v) i r -> solid i.
  Proof. intros W. unfold w_label in W. wsplit W. firsts. Qed.

  Lemma label_length v i r : written (w_label v) i r -> (length r < length i)%nat.
  Proof. intros W. unfold w_label in W. wsplit W. lens. Qed.

  Lemma labels_r vs d i j r : Forall good_value vs -> good_decl d -> written (flat_map w_label vs) i j ->
    written (w_decl d) j r -> solid i /\ many case_label vs i j.
  Proof.
    intros F Gd W Wd. revert i W. induction F as [|v vs G F IH]; intros i W; cbn [flat_map] in W.
    - apply w_nil_inv in W as ->. split; [eapply solid_decl; eassumption|]. constructor.
      eapply case_label_decl; eassumption.
    - apply w_app_inv in W as (k & W1 & W2). destruct (IH k W2) as [S M].
      split; [eapply solid_label; eassumption|].
      econstructor; [eapply label_r; eassumption|eapply label_length; eassumption|exact M].
  Qed.

  Lemma case_spec_r s i r : good_case s -> written (w_case s) i r -> (length i < L)%nat ->
    solid i /\ case_spec ts i = POk s r.
  Proof.
    intros G W Len. destruct s as [vs d]. cbn [w_case good_case] in *. destruct G as (NE & F & Gd).
    wsplit W. destruct (labels_r F Gd W0 W1) as [S M]. split; [exact S|].
    unfold case_spec. apply pmap_run with (f := fun '(v, d) => CaseSpec v d) (a := (vs, d)).
    eapply pair_run.
    - inversion M as [|a l' i0 i' r0 E _ M']; subst; [congruence|]. eapply many1_run; [exact E|exact M'].
    - eapply terminated_run; [eapply declaration_r; [exact Gd|eassumption|firsts|clear - W0 Len; lens]|eat].
  Qed.

  Lemma case_length s i r : good_case s -> written (w_case s) i r -> (length r < length i)%nat.
  Proof. intros G W. destruct s as [vs d]. cbn [w_case] in W. wsplit W. lens. Qed.

  Definition w_default (o : option decl) : list piece :=
    match o with
    | None => []
    | Some d => [Lit "default"; Bl; Lit ":"; Bl] ++ w_decl d ++ [Bl; Lit ";"; Bl]
    end.

  Lemma default_start o i j r : written (w_default o) i j -> written [Lit "}"] j r ->
    solid i /\ case_label i = PErr.
  Proof.
    intros W B. destruct o as [d|]; cbn [w_default] in W.
    - wsplit W. split; [firsts|]. eapply case_label_other; [eassumption|reflexivity|reflexivity].
    - apply w_nil_inv in W as ->. split; [firsts|]. eapply case_label_other; [eassumption|reflexivity|reflexivity].
  Qed.

  Lemma cases_r l o i j k r : Forall good_case l -> written (flat_map (fun s => w_case s ++ [Bl]) l) i j ->
    written (w_default o) j k -> written [Lit "}"] k r -> (length i < L)%nat ->
    solid i /\ many (terminated (case_spec ts) comment0) l i j.
  Proof.
    intros F. revert i. induction F as [|s l G F IH]; intros i W D B Len; cbn [flat_map] in W.
    - apply w_nil_inv in W as ->. destruct (default_start D B) as [S C]. split; [exact S|]. constructor.
      apply terminated_err1. unfold case_spec. apply pmap_err, pair_err1, many1_err, C.
    - rewrite <- app_assoc in W. apply w_app_inv in W as (m & W1 & W2). cbn [app] in W2.
      change (Bl :: flat_map (fun s => w_case s ++ [Bl]) l)
        with ([Bl] ++ flat_map (fun s => w_case s ++ [Bl]) l) in W2.
      apply w_app_inv in W2 as (m2 & W2 & W3).
      pose proof (case_length G W1) as L1. pose proof (w_length W2) as L2.
      destruct (case_spec_r G W1 Len) as [S E]. destruct (IH m2 W3 D B) as [S2 M]; [lia|].
      split; [exact S|]. apply many_cons with (i' := m2); [|lia|exact M].
      eapply terminated_run; [exact E|]. eapply comment0_e; eassumption.
  Qed.

  Lemma good_cases l : fold_right (fun s P => good_case s /\ P) True l <-> Forall good_case l.
  Proof.
    induction l as [|s l IH]; cbn; [split; constructor|]. rewrite IH. split.
    - intros [A B]. now constructor.
    - intros H. inversion H; auto.
  Qed.

  Lemma union_body_r u i r : good_union_body u -> written (w_union_body u) i r -> (length i < L)%nat ->
    union_body ts i = POk u r.
  Proof.
    intros G W Len. destruct u as [c l o]. cbn [w_union_body good_union_body] in *. fold (w_default o) in W.
    destruct G as (Gc & NE & Fl & Go). apply good_cases in Fl. wsplit W.
    rename j8 into k1.
    assert (L8 : (length k1 <= length i)%nat) by (clear - W0 W1 W2 W3 W4 W5 W6 W7 W8 W9; lens).
    match goal with H : written (flat_map _ l) ?a ?b |- _ => rename a into cs, b into ce, H into Wl end.
    match goal with H : written (w_default o) _ ?b |- _ => rename b into de, H into Wd end.
    destruct (@cases_r l o cs ce de r Fl Wl Wd W) as [S M].
    { clear - W0 W1 W2 W3 W4 W5 W6 W7 W8 W9 Len. lens. }
    unfold union_body. apply pmap_run with (f := fun '(c, (s, d)) => UBody c s d) (a := (c, (l, o))).
    eapply pair_run; [|eapply pair_run].
    - eapply delimited_run; [eat|eapply declaration_r; [exact Gc|eassumption|firsts|]|].
      + clear - W0 W1 W2 W3 Len. lens.
      + repeat (eapply eats_pair; [eat|]). eapply comment0_e; eassumption.
    - inversion M as [|a l' i0 i' r0 E _ M']; subst; [congruence|]. eapply many1_run; [exact E|exact M'].
    - assert (Lc : (length ce < L)%nat).
      { clear - W0 W1 W2 W3 W4 W5 W6 W7 W8 W9 Wl Len. lens. }
      destruct o as [d|]; cbn [w_default] in Wd.
      + clear M. wsplit Wd.
        eapply terminated_run.
        * apply opt_run. eapply delimited_run; [|eapply declaration_r; [exact Go|eassumption|firsts|]|].
          -- eapply eats_pair; [eat|]. eat.
          -- clear - W10 W11 W12 W13 Lc. lens.
          -- eat.
        * eat.
      + apply w_nil_inv in Wd as ->. eapply terminated_run.
        * apply opt_err. apply delimited_err1. eapply pair_err2; [eapply comment0_solid; firsts|].
          apply pair_err1. lit_err.
        * eat.
  Qed.
End Decl.

(** ** type_specifier *)
Section Alts.
  Variable ts : nparser tyspec.
  Variable L : nat.
  Hypothesis ts_r : forall t i r, good_type t -> t <> TsVoid -> written (w_type t) i r ->
    (length i < L)%nat -> ts i = POk t r.
  Hypothesis ts_bad : forall c i, name_start c = false -> (length (c :: i) < L)%nat -> ts (c :: i) = PErr.

  Lemma alts_bad c i : name_start c = false -> type_specifier_alts ts (c :: i) = PErr.
  Proof.
    intros H. unfold type_specifier_alts, alt. cbn [fold_right].
    assert (T : forall s, match chars s with d :: _ => name_start d | [] => false end = true -> tag s (c :: i) = PErr).
    { intros s Hs. apply tag_first. destruct (chars s) as [|d u]; [discriminate|].
      destruct (Ascii.eqb_spec d c) as [->|]; [congruence|reflexivity]. }
    repeat (rewrite por_next by
      (apply pmap_err; first
        [ apply preceded_err1, T; reflexivity | apply terminated_err1, T; reflexivity
        | apply preceded_err1, pair_err1, T; reflexivity ])).
    rewrite por_next; [reflexivity|]. apply pmap_err, identifier_start_err. cbn. congruence.
  Qed.

  Lemma wt_unsigned : forall {B} (p : B -> tyspec) (q : nparser B) (rest : nparser tyspec) i b r,
    q i = POk b r -> por (pmap q p) rest i = POk (p b) r.
  Proof. intros B p q rest i b r E. apply por_run. now apply pmap_run. Qed.

  Ltac skip_word W := rewrite por_next by
    (apply pmap_err; first
      [ eapply word_unsigned_err; [exact W|reflexivity] | eapply word_word_err; [exact W|reflexivity] ]).
  Ltac skip_lit W := rewrite por_next by
    (apply pmap_err; first
      [ eapply lit_unsigned_err; [exact W|reflexivity] | eapply lit_word_err; [exact W|reflexivity]
      | apply preceded_err1, pair_err1; eapply tag_lit_err; [exact W|reflexivity] ]).
  Ltac skip_uns W0 W1 W := rewrite por_next by
    (apply pmap_err; first
      [ eapply unsigned_word_err; [exact W0|exact W1|exact W|reflexivity|reflexivity]
      | eapply lit_word_err; [exact W0|reflexivity] ]).

  Lemma alts_r t i r : good_type t -> t <> TsVoid -> written (w_type t) i r -> (length i < S L)%nat ->
    type_specifier_alts ts i = POk t r.
  Proof.
    intros G NV W Len. unfold type_specifier_alts, alt. cbn [fold_right].
    destruct t as [[]|[]| | | | |l|l|u|x|[]|[]|]; cbn [w_type w_unsigned] in W; try congruence.
    - repeat skip_word W. exact (wt_unsigned (fun _ => TsInt true) _ (word_r W)).
    - apply w_cons_inv in W as (t & j & -> & [S P] & W). apply w_nil_inv in W as ->.
      destruct P as [(w & -> & NE & Sw)|[-> P]].
      + eapply (wt_unsigned (fun _ => TsInt false)). apply unsigned_run; [|reflexivity].
        rewrite <- !app_assoc. apply wr_cons; [reflexivity|]. apply wr_cons; [now split|].
        apply wr_cons; [now split|constructor].
      + assert (U : forall s, In s int_words -> unsigned_p s (chars "unsigned" ++ r) = PErr).
        { intros s Is. apply unsigned_alone_err. intros w r' -> NE Sw S'. apply P.
          exists w, s, r'. auto. }
        do 8 (rewrite por_next by
          (apply pmap_err; first [apply U; cbn; tauto | apply unsigned_other_err; reflexivity])).
        apply (wt_unsigned (fun _ => TsInt false)) with (b := tt). apply word_r. now apply w_one.
    - repeat skip_word W. exact (wt_unsigned (fun _ => TsHyper true) _ (word_r W)).
    - pose proof W as Wu. wsplit W. do 2 skip_uns W0 W1 W.
      exact (wt_unsigned (fun _ => TsHyper false) _ (unsigned_run Wu eq_refl)).
    - repeat skip_word W. exact (wt_unsigned (fun _ => TsFloat) _ (word_r W)).
    - repeat skip_word W. exact (wt_unsigned (fun _ => TsDouble) _ (word_r W)).
    - repeat skip_word W. exact (wt_unsigned (fun _ => TsQuadruple) _ (word_r W)).
    - repeat skip_word W. exact (wt_unsigned (fun _ => TsBool) _ (word_r W)).
    - change ([Lit "enum"; Sp1] ++ w_enum_body l) with (Lit "enum" :: Sp1 :: w_enum_body l) in W.
      wsplit W. repeat skip_lit W0. eapply (wt_unsigned TsEnum).
      unfold enum_type_spec. destruct G as [NE F].
      eapply preceded_run; [|eapply enum_body_r; eassumption].
      eapply eats_pair; [eat|]. eapply ms1_e; [eassumption|].
      unfold w_enum_body in W. wsplit W. firsts.
    - wsplit W. repeat skip_lit W0. eapply (wt_unsigned TsStruct). unfold struct_type_spec.
      destruct G as [NE F].
      assert (Wb : written (w_struct_body l) j0 r).
      { unfold w_struct_body. cbn [app]. eapply w_cons; [eassumption|]. eapply w_cons; [eassumption|].
        eapply w_app; eassumption. }
      eapply preceded_run; [|eapply (struct_body_r ts_r ts_bad); [|exact Wb|]].
      + eat.
      + split; [exact NE|]. clear - F. induction l as [|d l IH]; constructor; destruct F; auto.
      + clear - W0 W1 Len. lens.
    - change ([Lit "union"; Sp1] ++ w_union_body u) with (Lit "union" :: Sp1 :: w_union_body u) in W.
      wsplit W. repeat skip_lit W0. eapply (wt_unsigned TsUnion). unfold union_type_spec.
      eapply preceded_run; [|eapply (union_body_r ts_r ts_bad); [exact G|exact W|]].
      + eapply eats_pair; [eat|]. eapply ms1_e; [eassumption|].
        destruct u. cbn [w_union_body] in W. wsplit W. firsts.
      + clear - W0 W1 Len. lens.
    - apply w_cons_inv in W as (t & j & -> & (-> & N & Soft) & W). apply w_nil_inv in W as ->.
      cbn in G.
      assert (U : forall s, unsigned_p s (chars x ++ r) = PErr).
      { intros s. apply kw_ms1'; [exact G|exact N|names|inkw]. }
      assert (K : forall s, Forall (fun c => name_char c = true) (chars s) -> In s (keywords ++ soft_words) ->
                  word_p s (chars x ++ r) = PErr).
      { intros s F K. apply kw_word; auto. intros ->. apply in_app_iff in K as [K|K]; [|auto].
        exfalso. exact (proj2 G K). }
      do 13 (rewrite por_next by (apply pmap_err; first [apply U|apply K; [names|inkw]])).
      do 3 (rewrite por_next by (apply pmap_err, preceded_err1, kw_ms1; [exact G|exact N|names|inkw])).
      eapply (wt_unsigned TsIdent). now apply identifier_run.
    - repeat skip_word W. exact (wt_unsigned (fun _ => TsChar true) _ (word_r W)).
    - pose proof W as Wu. wsplit W. do 4 skip_uns W0 W1 W.
      exact (wt_unsigned (fun _ => TsChar false) _ (unsigned_run Wu eq_refl)).
    - repeat skip_word W. exact (wt_unsigned (fun _ => TsShort true) _ (word_r W)).
    - pose proof W as Wu. wsplit W. do 6 skip_uns W0 W1 W.
      exact (wt_unsigned (fun _ => TsShort false) _ (unsigned_run Wu eq_refl)).
  Qed.
End Alts.

Lemma type_specifier_bad n c i : name_start c = false -> (length (c :: i) < n)%nat ->
  type_specifier n (c :: i) = PErr.
Proof. intros H Len. destruct n as [|n]; [lia|]. cbn [type_specifier]. now apply alts_bad. Qed.

Lemma type_specifier_r n t i r : good_type t -> t <> TsVoid -> written (w_type t) i r ->
  (length i < n)%nat -> type_specifier n i = POk t r.
Proof.
  revert t i r. induction n as [|n IH]; intros t i r G NV W Len; [lia|]. cbn [type_specifier].
  eapply alts_r; [exact IH|exact (@type_specifier_bad n)|exact G|exact NV|exact W|exact Len].
Qed.

(** ** Definitions *)
Section Spec.
  Variable n : nat.

  Let ts_r := @type_specifier_r n.
  Let ts_bad := @type_specifier_bad n.

  Lemma solid_enum_body l i r : written (w_enum_body l) i r -> solid i.
  Proof. intros W. unfold w_enum_body in W. wsplit W. firsts. Qed.
  Lemma solid_struct_body l i r : written (w_struct_body l) i r -> solid i.
  Proof. intros W. unfold w_struct_body in W. wsplit W. firsts. Qed.
  Lemma solid_union_body u i r : written (w_union_body u) i r -> solid i.
  Proof. intros W. destruct u. cbn [w_union_body] in W. wsplit W. firsts. Qed.

  Lemma type_def_r t i r : good_typedef t -> written (w_typedef t) i r -> (length i < n)%nat ->
    type_def n i = POk t r.
  Proof.
    intros G W Len. unfold type_def, alt. cbn [fold_right].
    destruct t as [d|x l|x l|x u]; cbn [w_typedef good_typedef] in *; wsplit W.
    - apply por_run. apply pmap_run with (f := TdDecl).
      eapply delimited_run; [eat|eapply (declaration_r ts_r); [exact G|eassumption|firsts|]|eat].
      clear - W0 W1 Len. lens.
    - rewrite por_next by (apply pmap_err, delimited_err1, pair_err1; lit_err).
      apply por_run. apply pmap_run with (f := fun '(i, v) => TdEnum i v) (a := (x, l)).
      destruct G as (Gx & NE & F).
      eapply delimited_run; [eat| |eat].
      eapply pair_run; [eapply terminated_run; [eapply identifier_r; eassumption|]|eapply enum_body_r; eassumption].
      eapply comment0_e; [eassumption|]. eapply solid_enum_body; eassumption.
    - rewrite por_next by (apply pmap_err, delimited_err1, pair_err1; lit_err).
      rewrite por_next by (apply pmap_err, delimited_err1, pair_err1; lit_err).
      apply por_run. apply pmap_run with (f := fun '(i, v) => TdStruct i v) (a := (x, l)).
      destruct G as (Gx & Gl).
      eapply delimited_run; [eat| |eat].
      eapply pair_run; [eapply terminated_run; [eapply identifier_r; eassumption|]|
        eapply (struct_body_r ts_r ts_bad); [exact Gl|eassumption|clear - W0 W1 W2 W3 Len; lens]].
      eapply comment0_e; [eassumption|]. eapply solid_struct_body; eassumption.
    - rewrite por_next by (apply pmap_err, delimited_err1, pair_err1; lit_err).
      rewrite por_next by (apply pmap_err, delimited_err1, pair_err1; lit_err).
      rewrite por_next by (apply pmap_err, delimited_err1, pair_err1; lit_err).
      apply por_run. apply pmap_run with (f := fun '(i, v) => TdUnion i v) (a := (x, u)).
      destruct G as (Gx & Gl).
      eapply delimited_run; [eat| |eat].
      eapply pair_run; [eapply terminated_run; [eapply identifier_r; eassumption|]|
        eapply (union_body_r ts_r ts_bad); [exact Gl|eassumption|clear - W0 W1 W2 W3 Len; lens]].
      eapply comment0_e; [eassumption|]. eapply solid_union_body; eassumption.
  Qed.

  Lemma void_no_type r : nonname r -> (length (chars "void" ++ r) < n)%nat ->
    type_specifier n (chars "void" ++ r) = PErr.
  Proof.
    intros N Len. destruct n as [|m]; [lia|]. cbn [type_specifier].
    unfold type_specifier_alts, alt. cbn [fold_right].
    do 16 (rewrite por_next by reflexivity). rewrite por_next; [reflexivity|]. apply pmap_err.
    eapply identifier_keyword; [|reflexivity|reflexivity| |exact N]; [inkw|names].
  Qed.

  Lemma proc_type_r t i r : good_type t -> written (w_type t) i r -> nonname r -> (length i < n)%nat ->
    proc_type n i = POk t r.
  Proof.
    intros G W N Len. unfold proc_type, alt. cbn [fold_right].
    assert (D : t = TsVoid \/ t <> TsVoid) by (destruct t; auto; right; discriminate).
    destruct D as [-> |NV].
    - cbn [w_type] in W. pose proof (tag_r W) as E.
      apply w_cons_inv in W as (t & j & -> & -> & W). apply w_nil_inv in W as ->.
      rewrite por_next by now apply void_no_type.
      apply por_run. exact (pmap_run _ E).
    - apply por_run. now apply ts_r.
  Qed.

  Lemma number_r v i r : good_value v -> written (w_number v) i r -> number_p i = POk v r.
  Proof.
    intros G W. unfold w_number in W. wsplit W. unfold number_p.
    eapply delimited_run; [eat|eapply value_r; [eassumption..|firsts]|eat].
  Qed.
  Lemma solid_number v i r : written (w_number v) i r -> solid i.
  Proof. intros W. unfold w_number in W. wsplit W. firsts. Qed.

  (** a type of a procedure is not continued by what follows it *)
  Lemma procedure_r p i r : good_procedure p -> written (w_procedure p) i r -> (length i < n)%nat ->
    procedure_p n i = POk p r.
  Proof.
    intros (G1 & G2 & G3 & G4) W Len. destruct p as [a b c d]. cbn [pr_res pr_name pr_req pr_value] in *.
    unfold w_procedure in W. cbn [pr_res pr_name pr_req pr_value] in W. wsplit W.
    unfold procedure_p.
    apply pmap_run with (f := fun '(a, (b, (c, d))) => Procedure a b c d) (a := (a, (b, (c, d)))).
    eapply pair_run.
    { eapply terminated_run; [eapply proc_type_r; [exact G1|eassumption|firsts|exact Len]|eat]. }
    eapply pair_run; [eapply identifier_r; eassumption|].
    eapply pair_run; [|eapply number_r; eassumption].
    eapply delimited_run; [eat|eapply proc_type_r; [exact G3|eassumption|firsts|]|].
    - clear - W0 W1 W2 W3 W4 W5 Len. lens.
    - eapply eats_pair; [eat|]. eapply eats_pair; [eat|]. eapply ms0_e; [eassumption|].
      eapply solid_number; eassumption.
  Qed.

  Lemma solid_procedure p i r : good_procedure p -> written (w_procedure p) i r -> solid i.
  Proof. intros (G1 & _) W. unfold w_procedure in W. wsplit W. eapply solid_type; eassumption. Qed.

  Lemma procedure_length p i r : written (w_procedure p) i r -> (length r < length i)%nat.
  Proof. intros W. unfold w_procedure, w_number in W. wsplit W. lens. Qed.

  Lemma proc_type_brace i r : written [Lit "}"] i r -> (length i < n)%nat -> proc_type n i = PErr.
  Proof.
    intros W Len. apply w_cons_inv in W as (t & j & -> & -> & W). apply w_nil_inv in W as ->.
    unfold proc_type, alt. cbn [fold_right]. rewrite por_next by now apply ts_bad. reflexivity.
  Qed.

  Lemma procedures_r l i j r : Forall good_procedure l ->
    written (flat_map (fun p => w_procedure p ++ [Sp0]) l) i j -> written [Lit "}"] j r -> (length i < n)%nat ->
    solid i /\ many (terminated (procedure_p n) multispace0) l i j.
  Proof.
    intros F. revert i. induction F as [|p l G F IH]; intros i W B Len; cbn [flat_map] in W.
    - apply w_nil_inv in W as ->. split; [firsts|]. constructor.
      apply terminated_err1. unfold procedure_p. apply pmap_err, pair_err1, terminated_err1.
      eapply proc_type_brace; eassumption.
    - rewrite <- app_assoc in W. apply w_app_inv in W as (m & W1 & W2).
      apply w_app_inv in W2 as (m2 & W2 & W3).
      pose proof (procedure_length W1) as L1. pose proof (w_length W2) as L2.
      destruct (IH m2 W3 B) as [S M]; [lia|]. split; [eapply solid_procedure; eassumption|].
      apply many_cons with (i' := m2); [|lia|exact M].
      eapply terminated_run; [eapply procedure_r; eassumption|]. eapply ms0_e; eassumption.
  Qed.

  Lemma version_r v i r : good_version v -> written (w_version v) i r -> (length i < n)%nat ->
    version_p n i = POk v r.
  Proof.
    intros (G1 & NE & F & G4) W Len. destruct v as [a l c]. cbn [vs_name vs_procs vs_value] in *.
    unfold w_version in W. cbn [vs_name vs_procs vs_value] in W. wsplit W.
    match goal with H : written (flat_map _ l) ?a ?b |- _ => rename a into cs, b into ce, H into Wl end.
    assert (Lc : (length cs < n)%nat) by (clear - W0 W1 W2 W3 W4 W5 Len; lens).
    match goal with H : written [Lit "}"] ce ?b |- _ => rename b into be, H into Wb end.
    destruct (@procedures_r l cs ce be F Wl Wb Lc) as [S M].
    unfold version_p.
    apply pmap_run with (f := fun '(a, (b, c)) => Version a b c) (a := (a, (l, c))).
    eapply pair_run; [eapply preceded_run; [eat|eapply identifier_r; eassumption]|].
    eapply pair_run; [|eapply number_r; eassumption].
    eapply delimited_run.
    - eapply eats_pair; [eat|]. eapply eats_pair; [eat|]. eapply ms0_e; eassumption.
    - inversion M as [|x l' i0 i' r0 E _ M']; subst; [congruence|]. eapply many1_run; [exact E|exact M'].
    - eapply eats_pair; [eat|]. eapply eats_pair; [eat|]. eapply ms0_e; [eassumption|].
      eapply solid_number; eassumption.
  Qed.

  Lemma solid_version v i r : written (w_version v) i r -> solid i.
  Proof. intros W. unfold w_version in W. wsplit W. firsts. Qed.
  Lemma version_length v i r : written (w_version v) i r -> (length r < length i)%nat.
  Proof. intros W. unfold w_version, w_number in W. wsplit W. lens. Qed.

  Lemma versions_r l i j k r : Forall good_version l ->
    written (flat_map w_version l) i j -> written [Sp0] j k -> written [Lit "}"] k r -> (length i < n)%nat ->
    many (version_p n) l i j.
  Proof.
    intros F. revert i. induction F as [|v l G F IH]; intros i W B C Len; cbn [flat_map] in W.
    - apply w_nil_inv in W as ->. constructor.
      unfold version_p. apply pmap_err, pair_err1, preceded_err1, pair_err1.
      apply w_cons_inv in B as (t & m & -> & S & B). apply w_nil_inv in B as ->.
      destruct S as [|c t Hc _]; [cbn [app]; lit_err|]. cbn [app]. apply tag_first.
      change (chars "version") with ("v"%char :: chars "ersion"). cbv iota beta.
      destruct (Ascii.eqb_spec "v" c) as [<-|]; [discriminate|reflexivity].
    - apply w_app_inv in W as (m & W1 & W2). pose proof (version_length W1) as L1.
      econstructor; [eapply version_r; eassumption|exact L1|]. apply IH; auto. lia.
  Qed.

  Lemma program_r p i r : good_program p -> written (w_program p) i r -> (length i < n)%nat ->
    program_p n i = POk p r.
  Proof.
    intros (G1 & NE & F & G4) W Len. destruct p as [a l c]. cbn [pg_name pg_versions pg_value] in *.
    unfold w_program in W. cbn [pg_name pg_versions pg_value] in W. wsplit W.
    match goal with H : written (flat_map _ l) ?a ?b |- _ => rename a into cs, b into ce, H into Wl end.
    assert (Lc : (length cs < n)%nat) by (clear - W0 W1 W2 W3 W4 W5 Len; lens).
    assert (S : solid cs).
    { destruct l as [|v l]; [congruence|]. cbn [flat_map] in Wl. apply w_app_inv in Wl as (m & Wl & _).
      eapply solid_version; eassumption. }
    match goal with H : written [Sp0] ce ?b |- _ => rename b into be, H into Ws end.
    match goal with H : written [Lit "}"] be ?b |- _ => rename b into bf, H into Wb end.
    pose proof (@versions_r l cs ce be bf F Wl Ws Wb Lc) as M.
    unfold program_p.
    apply pmap_run with (f := fun '(a, (b, c)) => Program a b c) (a := (a, (l, c))).
    eapply pair_run; [eapply preceded_run; [eat|eapply identifier_r; eassumption]|].
    eapply pair_run; [|eapply number_r; eassumption].
    eapply delimited_run.
    - eapply eats_pair; [eat|]. eapply eats_pair; [eat|]. eapply ms0_e; eassumption.
    - inversion M as [|x l' i0 i' r0 E _ M']; subst; [congruence|]. eapply many1_run; [exact E|exact M'].
    - eapply eats_pair; [eat|]. eapply eats_pair; [eat|]. eapply ms0_e; [eassumption|].
      eapply solid_number; eassumption.
  Qed.

  Lemma comment_line_r i r : written [Line] i r -> exists x, comment_line i = POk x r.
  Proof.
    intros W. apply w_cons_inv in W as (t & j & -> & (b & F & T) & W). apply w_nil_inv in W as ->.
    exists b. unfold comment_line.
    assert (F' : Forall (fun c => negb (is_eol c) = true) b).
    { eapply Forall_impl; [|exact F]. intros c Hc. now rewrite Hc. }
    destruct T as [-> | ->]; rewrite <- !app_assoc;
      (eapply delimited_run; [eapply eats_run, tag_run| |]); unfold not_line_ending.
    - rewrite span_app; [|exact F'|cbn; congruence]. reflexivity.
    - now exists tt.
    - rewrite span_app; [|exact F'|cbn; congruence]. reflexivity.
    - now exists tt.
  Qed.

  Lemma definition_r d i r : good_definition d -> written (w_definition d) i r -> (length i < n)%nat ->
    definition_p n i = POk d r.
  Proof.
    intros G W Len. unfold definition_p, alt. cbn [fold_right].
    destruct d as [t|a| |p]; cbn [w_definition good_definition] in *.
    - rewrite por_next.
      2:{ apply pmap_err. unfold constant_def. apply preceded_err1, pair_err1.
          destruct t; cbn [w_typedef] in W; wsplit W; lit_err. }
      apply por_run. apply pmap_run with (f := DefType). now apply type_def_r.
    - apply por_run. apply pmap_run with (f := DefConst). now apply constant_def_r.
    - destruct (comment_line_r W) as [x E].
      assert (P : exists j, i = "%"%char :: j).
      { apply w_cons_inv in W as (t & j & -> & (b & _ & [-> | ->]) & _); eexists; reflexivity. }
      destruct P as [j ->]. do 3 (rewrite por_next by reflexivity).
      apply por_run. exact (pmap_run (fun _ => DefLine) E).
    - unfold w_program in W. pose proof W as W'. wsplit W.
      rewrite por_next by (apply pmap_err, preceded_err1, pair_err1; lit_err).
      rewrite por_next.
      2:{ apply pmap_err. unfold type_def, alt. cbn [fold_right].
          do 4 (rewrite por_next by (apply pmap_err, delimited_err1, pair_err1; lit_err)). reflexivity. }
      apply por_run. apply pmap_run with (f := DefProgram). now apply program_r.
  Qed.

  Lemma solid_definition d i r : written (w_definition d) i r -> solid i.
  Proof.
    intros W. destruct d as [[]| | |[]]; cbn [w_definition w_typedef] in W; unfold w_program in W;
      try (wsplit W; firsts).
    apply w_cons_inv in W as (t & j & -> & (b & _ & [-> | ->]) & _); reflexivity.
  Qed.

  Lemma definition_length d i r : good_definition d -> written (w_definition d) i r -> (length i < n)%nat ->
    (length r < length i)%nat.
  Proof. intros G W Len. eapply definition_consumes. eapply definition_r; eassumption. Qed.

  Lemma definition_nil : definition_p n [] = PErr.
  Proof. reflexivity. Qed.

  Lemma definitions_r ds i i' r : Forall good_definition ds -> written [Bl] i i' ->
    written (flat_map (fun d => w_definition d ++ [Bl]) ds) i' [] -> r = [] -> (length i < n)%nat -> ds <> [] ->
    many (delimited comment0 (definition_p n) comment0) ds i r.
  Proof.
    intros F. revert i i'. induction F as [|d ds G F IH]; intros i i' B W -> Len NE; [congruence|].
    cbn [flat_map] in W. rewrite <- app_assoc in W. apply w_app_inv in W as (j & W1 & W2).
    apply w_app_inv in W2 as (k & W2 & W3).
    pose proof (solid_definition W1) as S. pose proof (w_length B) as LB.
    assert (Len' : (length i' < n)%nat) by lia.
    pose proof (definition_r G W1 Len') as E. pose proof (definition_length G W1 Len') as L1.
    pose proof (w_length W2) as L2.
    assert (Sk : solid k).
    { destruct ds as [|d2 ds]; cbn [flat_map] in W3; [apply w_nil_inv in W3 as ->; exact I|].
      rewrite <- app_assoc in W3. apply w_app_inv in W3 as (m & W3 & _). eapply solid_definition; eassumption. }
    apply many_cons with (i' := k); [|lia|].
    - eapply delimited_run; [eapply comment0_e; eassumption|exact E|eapply comment0_e; eassumption].
    - destruct ds as [|d2 ds].
      + cbn [flat_map] in W3. apply w_nil_inv in W3 as ->. constructor. reflexivity.
      + apply (IH k k); auto; [|lia|discriminate]. change k with ([] ++ k) at 1. apply w_one. constructor.
  Qed.

  Lemma parse_complete ds i : denotes_text ds i -> (length i < n)%nat -> parse n i = GOk ds.
  Proof.
    intros [G W] Len. unfold parse, specification.
    assert (M : many (delimited comment0 (definition_p n) comment0) ds i []).
    { destruct ds as [|d ds].
      - cbn in W. apply w_nil_inv in W as ->. constructor. reflexivity.
      - change (w_spec (d :: ds)) with ([Bl] ++ flat_map (fun d => w_definition d ++ [Bl]) (d :: ds)) in W.
        apply w_app_inv in W as (j & W1 & W2). eapply definitions_r; eauto. discriminate. }
    now rewrite (many0_run M).
  Qed.
End Spec.
