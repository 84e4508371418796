(** The printed text is read as the token trees of the templates. *)
From Verif Require Import Base RustTypes Nom GenModel RustAst RustText SpecRust WireBase.
Set Implicit Arguments.
Unset Strict Implicit.
Local Open Scope string_scope.
Local Open Scope list_scope.
Local Open Scope nat_scope.

(** ** The lexer without its bound *)
Lemma span_length f t a b : span f t = (a, b) -> length t = length a + length b.
Proof.
  revert a b. induction t as [|c t IH]; intros a b; cbn [span]; [intros [= <- <-]; easy|].
  destruct (f c).
  - destruct (span f t) as [a' b'] eqn:E. intros [= <- <-]. cbn. now rewrite (IH _ _ eq_refl).
  - intros [= <- <-]. easy.
Qed.
Lemma strip_length s : forall t r, strip s t = Some r -> length t = length s + length r.
Proof.
  induction s as [|c s IH]; intros t r; cbn [strip]; [intros [= <-]; easy|].
  destruct t as [|d t]; [easy|]. destruct (Ascii.eqb c d); [|easy]. intros H. cbn. now rewrite (IH _ _ H).
Qed.
Lemma first_operator_length l : Forall (fun s => chars s <> []) l -> forall t s r, first_operator l t = Some (s, r) ->
  length r < length t.
Proof.
  induction 1 as [|s l N _ IH]; intros t s' r; cbn [first_operator]; [easy|].
  destruct (strip (chars s) t) as [r'|] eqn:E.
  - intros [= <- <-]. apply strip_length in E. destruct (chars s); [easy|]. cbn in E. lia.
  - apply IH.
Qed.
Lemma operators_nonempty : Forall (fun s => chars s <> []) operators.
Proof. repeat constructor; discriminate. Qed.

Lemma next_shorter t o r : next_lexeme t = Some (o, r) -> length r < length t.
Proof.
  destruct t as [|c t]; [easy|]. unfold next_lexeme.
  destruct (is_space c); [intros [= <- <-]; cbn; lia|].
  destruct (word_start c) eqn:W.
  { destruct (span word_char (c :: t)) as [x r0] eqn:E.
    assert (L : length r0 < length (c :: t)).
    { pose proof (span_length E) as L. cbn [span] in E. assert (word_char c = true) as K.
      { unfold word_start in W. unfold word_char, is_alphanum. destruct (is_alpha c); [easy|]. cbn in W. rewrite W. now destruct (is_digit c). }
      rewrite K in E. destruct (span word_char t). injection E as <- <-. cbn in *. lia. }
    destruct (strip (chars "#") r0) as [r1|] eqn:S1.
    - apply strip_length in S1. destruct (_ && _); [|easy]. destruct (span word_char r1) as [y r2] eqn:E2.
      apply span_length in E2. destruct (existsb _ _); [easy|]. intros [= <- <-]. cbn in *. lia.
    - destruct (starts _ _); [easy|]. intros [= <- <-]. easy. }
  destruct (is_digit c) eqn:D.
  { destruct (span is_digit (c :: t)) as [d r0] eqn:E. destruct (span word_char r0) as [s r1] eqn:E1.
    assert (L : length r0 < length (c :: t)).
    { pose proof (span_length E) as L. cbn [span] in E. rewrite D in E. destruct (span is_digit t). injection E as <- <-. cbn in *. lia. }
    apply span_length in E1. destruct (_ && _); [|easy]. intros [= <- <-]. lia. }
  destruct (Ascii.eqb c """").
  { destruct (span _ t) as [s r0] eqn:E. destruct (strip (chars """") r0) as [r1|] eqn:S1; [|easy]. intros [= <- <-].
    apply span_length in E. apply strip_length in S1. cbn in *. lia. }
  destruct (Ascii.eqb c "'").
  { destruct (starts word_start t); [|easy]. destruct (span word_char t) as [x r0] eqn:E. destruct (starts _ _); [easy|].
    intros [= <- <-]. apply span_length in E. cbn. lia. }
  destruct (bracket_char c); [intros [= <- <-]; cbn; lia|].
  destruct (match strip (chars "//") (c :: t) with Some _ => _ | None => _ end); [easy|].
  destruct (first_operator operators (c :: t)) as [[s r0]|] eqn:E; [|easy]. intros [= <- <-].
  exact (first_operator_length operators_nonempty E).
Qed.

Lemma lex_enough n : forall m t, length t <= n -> length t <= m -> lex n t = lex m t.
Proof.
  induction n as [|n IH]; intros m t Hn Hm.
  - destruct t; [|cbn in Hn; lia]. now destruct m.
  - destruct t as [|c t]; [now destruct m|]. destruct m as [|m]; [cbn in Hm; lia|].
    cbn [lex]. destruct (next_lexeme (c :: t)) as [[o r]|] eqn:E; [|easy].
    apply next_shorter in E. destruct o as [l|]; [f_equal|]; apply IH; cbn in *; lia.
Qed.
Definition lexed (t : text) : option (list lexeme) := lex (length t) t.
Lemma lexed_nil : lexed [] = Some [].
Proof. reflexivity. Qed.
Lemma lexed_next c t o r : next_lexeme (c :: t) = Some (o, r) ->
  lexed (c :: t) = match o with Some l => option_map (cons l) (lexed r) | None => lexed r end.
Proof.
  intros H. unfold lexed at 1. cbn [length lex]. rewrite H. apply next_shorter in H. cbn in H.
  unfold lexed. destruct o; [f_equal|]; apply lex_enough; lia.
Qed.
Lemma lexed_space t : lexed (" "%char :: t) = lexed t.
Proof. now rewrite lexed_next with (o := None) (r := t). Qed.
Lemma lexed_newline : lexed [ascii_of_nat 10] = Some [].
Proof. reflexivity. Qed.

(** ** The calls of the templates *)
Definition bracket_of (d : delim) : bracket :=
  match d with Paren => BRound | Bracket => BSquare | Brace => BCurly end.
Fixpoint lexemes_of (c : call) : list lexeme :=
  match c with
  | CIdent (Id x) => [LWord x]
  | CIdent (RawId x) => [LRaw x]
  | COp s => [LOp s]
  | CLife x => [LLife x]
  | CInt z s => (if (z <? 0)%Z then [LOp "-"] else []) ++ [LInt (Z.abs z) s]
  | CStr s => [LStr s]
  | CGroup d cs => LOpen (bracket_of d) :: flat_map lexemes_of cs ++ [LClose (bracket_of d)]
  end.
Fixpoint trees_of (c : call) : list tree :=
  match c with
  | CIdent (Id x) => [Leaf (LWord x)]
  | CIdent (RawId x) => [Leaf (LRaw x)]
  | COp s => [Leaf (LOp s)]
  | CLife x => [Leaf (LLife x)]
  | CInt z s => (if (z <? 0)%Z then [Leaf (LOp "-")] else []) ++ [Leaf (LInt (Z.abs z) s)]
  | CStr s => [Leaf (LStr s)]
  | CGroup d cs => [Node (bracket_of d) (flat_map trees_of cs)]
  end.

Definition raw_refused : list string := ["_"; "super"; "self"; "Self"; "crate"].
Definition used_ops : list string := ["::"; "=>"; "->"; ","; ";"; ":"; "="; "<"; ">"; "&"; "#"; "!"].
Definition used_suffixes : list string := ["u32"; "u64"; "usize"; "i32"].
Inductive spelled : call -> Prop :=
| spl_id x : ident_text (chars x) = true -> spelled (CIdent (Id x))
| spl_raw x : ident_text (chars x) = true -> existsb (String.eqb x) raw_refused = false -> spelled (CIdent (RawId x))
| spl_op s : In s used_ops -> spelled (COp s)
| spl_life x : ident_text (chars x) = true -> spelled (CLife x)
| spl_int z s : (Z.abs z < 10 ^ 20)%Z -> In s used_suffixes -> spelled (CInt z s)
| spl_str s : Forall (fun c => c <> """"%char /\ c <> "\"%char) (chars s) -> spelled (CStr s)
| spl_group d cs : Forall spelled cs -> spelled (CGroup d cs).

Section CallInd.
  Variable P : call -> Prop.
  Hypothesis HI : forall i, P (CIdent i).
  Hypothesis HO : forall s, P (COp s).
  Hypothesis HL : forall x, P (CLife x).
  Hypothesis HN : forall z s, P (CInt z s).
  Hypothesis HS : forall s, P (CStr s).
  Hypothesis HG : forall d cs, Forall P cs -> P (CGroup d cs).
  Fixpoint call_rect' (c : call) : P c :=
    match c with
    | CIdent i => HI i | COp s => HO s | CLife x => HL x | CInt z s => HN z s | CStr s => HS s
    | CGroup d cs => HG d ((fix all cs : Forall P cs := match cs with
                                          | [] => Forall_nil _
                                          | c :: cs => Forall_cons c (call_rect' c) (all cs)
                                          end) cs)
    end.
End CallInd.

(** the text of one call *)
Definition pad (d : delim) (ts : list token) : text :=
  match d, ts with Brace, _ :: _ => chars " " | _, _ => [] end.
Definition call_text (c : call) : text :=
  match c with
  | CIdent i => show_ident i
  | COp s => chars s
  | CLife x => "'"%char :: chars x
  | CInt z s => (if (z <? 0)%Z then chars "- " else []) ++ to_decimal (Z.abs z) ++ chars s
  | CStr s => """"%char :: chars s ++ [""""%char]
  | CGroup d cs =>
      let ts := flat_map tokens_of cs in opening d ++ show true ts ++ pad d ts ++ closing d
  end.
Definition gap (glue : bool) : text := if glue then [] else chars " ".

Lemma show_group d ts : show_token (TkGroup d ts) = opening d ++ show true ts ++ pad d ts ++ closing d.
Proof. reflexivity. Qed.
Lemma show_call c glue ts : spelled c -> show glue (tokens_of c ++ ts) = gap glue ++ call_text c ++ show false ts.
Proof.
  intros H. destruct H as [x _|x _ _|s H|x _|z s _ _|s _|d cs _].
  - reflexivity.
  - reflexivity.
  - repeat (destruct H as [<-|H]; [reflexivity|]). destruct H.
  - reflexivity.
  - cbn [tokens_of call_text]. destruct (z <? 0)%Z; [|reflexivity].
    cbn [app show show_token is_joint gap]. unfold gap. cbn [app chars]. now rewrite <- ?app_assoc.
  - cbn [tokens_of call_text app show show_token is_joint]. unfold gap. cbn [app]. now rewrite <- ?app_assoc.
  - cbn [tokens_of app show is_joint]. now rewrite show_group.
Qed.

(** what can follow a lexeme *)
Definition sep (t : text) : Prop :=
  match t with [] => True | c :: _ => In c [" "; ")"; "]"; "010"]%char end.
Ltac sep_cases t H :=
  destruct t as [|?c t]; [clear H|cbn in H; destruct H as [<-|[<-|[<-|[<-|[]]]]]].

Lemma span_all f a b : forallb f a = true -> starts f b = false -> span f (a ++ b) = (a, b).
Proof.
  intros H N. induction a as [|c a IH]; cbn [app span].
  - destruct b as [|c b]; [easy|]. cbn in N. cbn. now rewrite N.
  - cbn in H. apply andb_true_iff in H as [H1 H2]. rewrite H1, IH by easy. reflexivity.
Qed.
Lemma word_start_space c : word_start c = true -> is_space c = false /\ word_char c = true.
Proof. destruct c as [[] [] [] [] [] [] [] []]; vm_compute; easy. Qed.
Lemma digit_plain c : is_digit c = true -> is_space c = false /\ word_start c = false.
Proof. destruct c as [[] [] [] [] [] [] [] []]; vm_compute; easy. Qed.

Lemma ident_split x : ident_text x = true -> exists c t, x = c :: t /\ word_start c = true /\ forallb word_char t = true.
Proof.
  destruct x as [|c t]; [easy|]. cbn [ident_text]. intros H. apply andb_true_iff in H as [H1 H2]. now exists c, t.
Qed.
Lemma ident_forall x : ident_text x = true -> forallb word_char x = true.
Proof.
  intros H. destruct (ident_split H) as (c & t & -> & W & F). cbn. destruct (word_start_space W) as [_ ->]. easy.
Qed.

Lemma lexed_word x r : ident_text (chars x) = true -> sep r ->
  lexed (chars x ++ r) = option_map (cons (LWord x)) (lexed r).
Proof.
  intros H S. pose proof (ident_forall H) as F. destruct (ident_split H) as (c & t & E & W & _).
  destruct (word_start_space W) as [Sp _].
  assert (N : next_lexeme (chars x ++ r) = Some (Some (LWord x), r)).
  { rewrite E. cbn [app next_lexeme]. rewrite Sp, W. change (c :: t ++ r) with ((c :: t) ++ r). rewrite <- E.
    rewrite span_all; [|exact F|sep_cases r S; reflexivity].
    replace (strip (chars "#") r) with (@None text) by (sep_cases r S; reflexivity).
    replace (starts quote_char r) with false by (sep_cases r S; reflexivity).
    now rewrite string_of_list_ascii_of_string. }
  rewrite E in *. cbn [app] in *. now rewrite (lexed_next N).
Qed.
Lemma lexed_raw x r : ident_text (chars x) = true -> existsb (String.eqb x) raw_refused = false -> sep r ->
  lexed (chars "r#" ++ chars x ++ r) = option_map (cons (LRaw x)) (lexed r).
Proof.
  intros H R S. pose proof (ident_forall H) as F. destruct (ident_split H) as (c & t & E & W & _).
  assert (N : next_lexeme (chars "r#" ++ chars x ++ r) = Some (Some (LRaw x), r)).
  { change (chars "r#" ++ chars x ++ r) with ("r"%char :: "#"%char :: chars x ++ r).
    cbv beta iota delta [next_lexeme]. change (is_space "r") with false. change (word_start "r") with true. cbv beta iota.
    change (span word_char ("r"%char :: "#"%char :: chars x ++ r)) with (["r"%char], "#"%char :: chars x ++ r).
    cbv beta iota. change (strip (chars "#") ("#"%char :: chars x ++ r)) with (Some (chars x ++ r)). cbv beta iota.
    replace (starts word_start (chars x ++ r)) with true by (rewrite E; cbn; now rewrite W).
    change (String.eqb (str ["r"%char]) "r" && true) with true. cbv beta iota.
    rewrite span_all; [|exact F|sep_cases r S; reflexivity].
    rewrite string_of_list_ascii_of_string.
    replace (existsb (String.eqb x) ["_"; "self"; "Self"; "super"; "crate"]) with false; [reflexivity|].
    symmetry. revert R. cbn. intros R. repeat (apply orb_false_iff in R as [? R]). repeat (apply orb_false_iff; split); easy. }
  exact (lexed_next N).
Qed.
Lemma lexed_life x r : ident_text (chars x) = true -> sep r ->
  lexed ("'"%char :: chars x ++ r) = option_map (cons (LLife x)) (lexed r).
Proof.
  intros H S. pose proof (ident_forall H) as F. destruct (ident_split H) as (c & t & E & W & _).
  refine (lexed_next (o := Some _) _).
  unfold next_lexeme. change (is_space "'") with false. change (word_start "'") with false. change (is_digit "'") with false.
  change (Ascii.eqb "'" """") with false. change (Ascii.eqb "'" "'") with true. cbv beta iota.
  replace (starts word_start (chars x ++ r)) with true by (rewrite E; cbn; now rewrite W).
  rewrite span_all; [|exact F|sep_cases r S; reflexivity].
  replace (starts quote_char r) with false by (sep_cases r S; reflexivity).
  now rewrite string_of_list_ascii_of_string.
Qed.
Lemma lexed_op s r : In s ("-" :: used_ops) -> sep r -> lexed (chars s ++ r) = option_map (cons (LOp s)) (lexed r).
Proof.
  intros H S.
  repeat (destruct H as [<-|H]; [refine (lexed_next (o := Some _) _); sep_cases r S; reflexivity|]). destruct H.
Qed.
Lemma lexed_str s r : Forall (fun c => c <> """"%char /\ c <> "\"%char) (chars s) ->
  lexed (""""%char :: chars s ++ """"%char :: r) = option_map (cons (LStr s)) (lexed r).
Proof.
  intros F. refine (lexed_next (o := Some _) _).
  unfold next_lexeme. change (is_space """") with false. change (word_start """") with false. change (is_digit """") with false.
  change (Ascii.eqb """" """") with true. cbv beta iota.
  rewrite span_all; [| |reflexivity].
  - change (strip (chars """") (""""%char :: r)) with (Some r). now rewrite string_of_list_ascii_of_string.
  - apply forallb_forall. intros c Hc. rewrite Forall_forall in F. destruct (F c Hc) as [A B].
    destruct (Ascii.eqb_spec c """"); [easy|]. destruct (Ascii.eqb_spec c "\"); easy.
Qed.

Lemma digits_pos_digits n : forall z acc, forallb is_digit acc = true -> forallb is_digit (digits_pos n z acc) = true.
Proof.
  induction n as [|n IH]; intros z acc F; [easy|]. cbn [digits_pos].
  assert (D : is_digit (ascii_of_N (Z.to_N (48 + z mod 10))) = true).
  { assert (L : (0 <= z mod 10 < 10)%Z) by (apply Z.mod_pos_bound; lia).
    unfold is_digit, code. rewrite N_ascii_embedding by lia. rewrite Z2N.id by lia. apply andb_true_iff. split; apply Z.leb_le; lia. }
  assert (H : forallb is_digit (ascii_of_N (Z.to_N (48 + z mod 10)) :: acc) = true) by (cbn [forallb]; now rewrite D).
  destruct (z <? 10)%Z; [easy|now apply IH].
Qed.
Lemma digits_pos_cons n z acc : digits_pos (S n) z acc <> [].
Proof.
  revert z acc. induction n as [|n IH]; intros z acc.
  - cbn. now destruct (z <? 10)%Z.
  - cbn [digits_pos]. destruct (z <? 10)%Z; [easy|]. apply IH.
Qed.
Lemma number_dval t : number t = dval t.
Proof.
  unfold number, dval. generalize 0%Z. induction t as [|c t IH]; intros v; [easy|]. cbn [fold_left].
  replace (10 * v + digit_value c)%Z with (v * 10 + (Z.of_N (N_of_ascii c) - 48))%Z by (unfold digit_value, code; lia). apply IH.
Qed.
Lemma decimal_number z : (0 <= z < 10 ^ 20)%Z ->
  number (to_decimal z) = z /\ forallb is_digit (to_decimal z) = true /\ to_decimal z <> [].
Proof.
  intros H. unfold to_decimal. destruct (Z.ltb_spec z 0); [lia|]. split; [|split].
  - rewrite number_dval, digits_pos_val by (change (10 ^ Z.of_nat 20)%Z with (10 ^ 20)%Z; lia).
    change (zlen (@nil ascii)) with 0%Z. change (dval []) with 0%Z. lia.
  - now apply digits_pos_digits.
  - apply digits_pos_cons.
Qed.
Lemma suffix_facts s r : In s used_suffixes -> sep r ->
  starts is_digit (chars s ++ r) = false /\ span word_char (chars s ++ r) = (chars s, r) /\
  existsb (String.eqb (str (chars s))) suffixes = true.
Proof.
  intros H S. repeat (destruct H as [<-|H]; [split; [reflexivity|split; [apply span_all; [reflexivity|sep_cases r S; reflexivity]|reflexivity]]|]). destruct H.
Qed.
Lemma lexed_int z s r : (0 <= z < 10 ^ 20)%Z -> In s used_suffixes -> sep r ->
  lexed (to_decimal z ++ chars s ++ r) = option_map (cons (LInt z s)) (lexed r).
Proof.
  intros H Hs S. destruct (decimal_number H) as (V & D & N). destruct (suffix_facts Hs S) as (S1 & S2 & S3).
  destruct (to_decimal z) as [|c t] eqn:E; [easy|].
  assert (Dc : is_digit c = true) by (cbn in D; now destruct (is_digit c)).
  destruct (digit_plain Dc) as [Sp W].
  cbn [app]. refine (lexed_next (o := Some _) _). unfold next_lexeme. rewrite Sp, W, Dc.
  change (c :: t ++ chars s ++ r) with ((c :: t) ++ chars s ++ r). rewrite span_all by assumption.
  rewrite S2, S3, V.
  replace (starts (fun c0 => quote_char c0 || Ascii.eqb c0 ".") r) with false by (sep_cases r S; reflexivity).
  cbn [andb negb]. now rewrite string_of_list_ascii_of_string.
Qed.

Lemma omap_app {A} (a b : list A) o : option_map (app a) (option_map (app b) o) = option_map (app (a ++ b)) o.
Proof. destruct o; cbn; [|easy]. now rewrite app_assoc. Qed.
Lemma omap_cons {A} (a : A) b o : option_map (cons a) (option_map (app b) o) = option_map (app (a :: b)) o.
Proof. now destruct o. Qed.
Lemma omap_nil {A} (o : option (list A)) : option_map (app []) o = o.
Proof. now destruct o. Qed.

Lemma lexed_open d r : lexed (opening d ++ r) = option_map (cons (LOpen (bracket_of d))) (lexed r).
Proof.
  destruct d; cbn [opening].
  - exact (lexed_next (c := "(") (t := r) (o := Some _) eq_refl).
  - exact (lexed_next (c := "[") (t := r) (o := Some _) eq_refl).
  - change (chars "{ " ++ r) with ("{"%char :: " "%char :: r).
    rewrite (lexed_next (c := "{") (t := " "%char :: r) (o := Some (LOpen BCurly)) (r := " "%char :: r) eq_refl). now rewrite lexed_space.
Qed.
Lemma lexed_close d r : lexed (closing d ++ r) = option_map (cons (LClose (bracket_of d))) (lexed r).
Proof.
  destruct d; cbn [closing].
  - exact (lexed_next (c := ")") (t := r) (o := Some _) eq_refl).
  - exact (lexed_next (c := "]") (t := r) (o := Some _) eq_refl).
  - exact (lexed_next (c := "}") (t := r) (o := Some _) eq_refl).
Qed.

Definition lexes (c : call) : Prop := spelled c -> forall r, sep r ->
  lexed (call_text c ++ r) = option_map (app (lexemes_of c)) (lexed r).

Lemma show_false_sep ts r : sep r -> sep (show false ts ++ r).
Proof. destruct ts; cbn; auto. Qed.
Lemma lexes_all cs : Forall lexes cs -> Forall spelled cs -> forall glue r, sep r ->
  lexed (show glue (flat_map tokens_of cs) ++ r) = option_map (app (flat_map lexemes_of cs)) (lexed r).
Proof.
  induction 1 as [|c cs H _ IH]; intros F glue r S; inversion F as [|? ? S1 S2]; subst.
  - cbn. now rewrite omap_nil.
  - cbn [flat_map]. rewrite show_call by assumption. rewrite <- !app_assoc.
    assert (G : forall t, lexed (gap glue ++ t) = lexed t) by (intros t; destruct glue; [reflexivity|apply lexed_space]).
    rewrite G, H by (auto using show_false_sep). rewrite IH by assumption. apply omap_app.
Qed.

Lemma tokens_nonempty c : spelled c -> tokens_of c <> [].
Proof.
  intros H. destruct H as [| |s H| |z s _ _| |]; try (cbn; discriminate).
  - repeat (destruct H as [<-|H]; [discriminate|]). destruct H.
  - cbn. now destruct (z <? 0)%Z.
Qed.

Lemma lexes_call c : lexes c.
Proof.
  induction c as [[x|x]|s|x|z s|s|d cs IH] using call_rect'; intros W r S; inversion W as [? W1|? W1 W2|? W1|? W1|? ? W1 W2|? W1|? ? W1]; subst; cbn [call_text lexemes_of].
  - now apply lexed_word.
  - now apply lexed_raw.
  - apply lexed_op; [now right|exact S].
  - now apply lexed_life.
  - rewrite <- !app_assoc.
    assert (D : lexed (to_decimal (Z.abs z) ++ chars s ++ r) = option_map (cons (LInt (Z.abs z) s)) (lexed r)) by (apply lexed_int; [lia|assumption|assumption]).
    destruct (z <? 0)%Z; [|exact D].
    change (chars "- " ++ ?t) with (chars "-" ++ " "%char :: t). rewrite lexed_op; [|now left|now left].
    rewrite lexed_space, D. cbn [app]. now destruct (lexed r).
  - rewrite <- app_comm_cons, <- app_assoc. cbn [app]. now apply lexed_str.
  - rewrite <- !app_assoc. rewrite lexed_open.
    assert (L : lexed (show true (flat_map tokens_of cs) ++ pad d (flat_map tokens_of cs) ++ closing d ++ r) =
                option_map (app (flat_map lexemes_of cs)) (lexed (closing d ++ r))).
    { destruct cs as [|c cs].
      - cbn. rewrite omap_nil. now destruct d.
      - set (l := c :: cs) in *. destruct d; cbn [pad].
        + apply lexes_all; [exact IH|exact W1|]. cbn. tauto.
        + apply lexes_all; [exact IH|exact W1|]. cbn. tauto.
        + assert (N : exists t ts, flat_map tokens_of l = t :: ts).
          { subst l. inversion W1 as [|? ? Wc _]; subst. cbn [flat_map]. pose proof (tokens_nonempty Wc) as N.
            destruct (tokens_of c) as [|t ts]; [easy|]. cbn. eauto. }
          destruct N as (t & ts & N). rewrite N at 2. cbn [chars app].
          rewrite lexes_all; [|exact IH|exact W1|cbn; tauto]. now rewrite lexed_space. }
    rewrite L, lexed_close. destruct (lexed r); cbn; [|easy]. now rewrite <- app_assoc.
Qed.

Theorem text_lexed cs r : Forall spelled cs -> sep r ->
  lexed (show true (flat_map tokens_of cs) ++ r) = option_map (app (flat_map lexemes_of cs)) (lexed r).
Proof. intros F S. apply lexes_all; [|exact F|exact S]. apply Forall_forall. intros c _. apply lexes_call. Qed.

(** ** Token trees *)
Lemma bracket_refl b : bracket_eqb b b = true.
Proof. now destruct b. Qed.
Lemma nest_call c : forall open done ls, nest open done (lexemes_of c ++ ls) = nest open (rev (trees_of c) ++ done) ls.
Proof.
  induction c as [[x|x]|s|x|z s|s|d cs IH] using call_rect'; intros open done ls; try reflexivity.
  - cbn [lexemes_of trees_of]. now destruct (z <? 0)%Z.
  - cbn [lexemes_of trees_of]. cbn [app nest]. rewrite <- app_assoc.
    assert (A : forall open done ls, nest open done (flat_map lexemes_of cs ++ ls) = nest open (rev (flat_map trees_of cs) ++ done) ls).
    { clear open done ls. induction IH as [|c cs H _ IH]; intros open done ls; [reflexivity|].
      cbn [flat_map]. rewrite <- app_assoc, H, IH. now rewrite rev_app_distr, <- app_assoc. }
    rewrite A, app_nil_r. cbn [app nest]. now rewrite bracket_refl, rev_involutive.
Qed.
Lemma nest_calls cs : forall open done ls, nest open done (flat_map lexemes_of cs ++ ls) = nest open (rev (flat_map trees_of cs) ++ done) ls.
Proof.
  induction cs as [|c cs IH]; intros open done ls; [reflexivity|].
  cbn [flat_map]. rewrite <- app_assoc, nest_call, IH. now rewrite rev_app_distr, <- app_assoc.
Qed.

Theorem text_trees cs r : Forall spelled cs -> sep r -> lexed r = Some [] ->
  read_trees (show true (flat_map tokens_of cs) ++ r) = Some (flat_map trees_of cs).
Proof.
  intros F S R. unfold read_trees. fold (lexed (show true (flat_map tokens_of cs) ++ r)).
  rewrite text_lexed, R by assumption. cbn [option_map]. rewrite nest_calls. cbn. now rewrite app_nil_r, rev_involutive.
Qed.
