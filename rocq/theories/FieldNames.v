(** C58: exactly which fields get a name that Rust does not allow. *)
From Verif Require Import Base Nom NomFacts Keyword Ast ParserModel SpecGrammar SpecParse ParseSound ParserLemmas ConstProofs
  CaseModel SpecCase CaseProofs RustAst GenModel SpecGen SpecItems GenFacts GenTotal GenPanic GenLemmas.
Set Implicit Arguments.
Unset Strict Implicit.
Local Open Scope string_scope.
Local Open Scope list_scope.

Lemma reserved_capital x y i : rust_reserved x = true -> snake_case_ident ("r#" ++ x) = GOk i -> has_capital x ->
  snaked (chars x) (chars y) -> False.
Proof.
  intros e. apply reserved_in in e.
  assert (F : Forall (fun x => match snake_case_ident ("r#" ++ x) with GOk _ => existsb is_upper (chars x) = false | _ => True end)
    KEYWORDS_RUST) by (repeat (constructor; [first [exact I|reflexivity]|]); constructor).
  rewrite Forall_forall in F. specialize (F x e). intros H (c & Hc & Uc) _. rewrite H in F.
  assert (existsb is_upper (chars x) = true) by (apply existsb_exists; exists c; split; [easy|now apply capital_spec]). congruence.
Qed.
Lemma struct_emitted cfg ds f n x y l : gen_code n cfg ds = GOk f -> In (x, TdStruct y l) (type_defs ds) ->
  exists s, In (IStruct s) (fi_types f) /\ convert_struct_token (ctx cfg ds) n x l = GOk s.
Proof.
  intros H I. apply gen_ok_parts in H as [_ H].
  unfold types_token in H. apply gbind_ok in H as (ls & H & E). injection E as E. rewrite <- E. clear E.
  apply gmap_ok in H. cbn [typedefs ctx] in H.
  induction H as [|[x' t] l' ts ls h H IH]; [easy|]. cbn [concat]. destruct I as [I|I].
  - injection I as -> ->. cbn [type_token_of] in h. apply gbind_ok in h as (s & h & [= <-]).
    exists s. split; [now left|easy].
  - destruct (IH I) as (s & Hs & C). exists s. split; [apply in_app_iff; now right|easy].
Qed.
Lemma field_words cfg ds f y : good_spec ds -> greturns (fun n => gen_code n cfg ds) (GOk f) -> In y rust_words ->
  emitted_field f (Id y) <-> exists x, field_of ds x /\ has_capital x /\ snaked (chars x) (chars y).
Proof.
  intros G H K. split; [intros F; now apply (c58 G H F)|].
  intros (x & (s & y' & l & d & Hs & Hd & Dx) & Cx & Sx). apply greturns_run in H as (n & H & _).
  destruct (struct_emitted H Hs) as (s' & Is & C). unfold convert_struct_token in C.
  apply gbind_ok in C as (fs & C & D). apply gbind_ok in D as (ni & _ & [= <-]). apply gmap_ok in C.
  assert (T : exists fd, In fd fs /\ struct_field (ctx cfg ds) n s d = GOk fd).
  { clear - C Hd. induction C as [|d' q l fs h C IH]; [easy|]. destruct Hd as [->|Hd].
    - exists q. split; [now left|easy].
    - destruct (IH Hd) as (fd & a & b). exists fd. split; [now right|easy]. }
  destruct T as (fd & If & T). exists (StructItem ni fs), fd. split; [easy|]. split; [easy|].
  destruct (good_types G Hs) as [gt _]. cbn in gt. destruct gt as (_ & _ & gl). rewrite Forall_forall in gl.
  assert (gx : good_name x) by exact (good_declared (gl _ Hd) Dx).
  unfold struct_field in T. assert (Ex : decl_name d = Some x) by (rewrite <- Dx; now destruct d). rewrite Ex in T.
  apply gbind_ok in T as (o & _ & T). apply gbind_ok in T as ([ty op] & _ & T). cbv zeta in T.
  apply gbind_ok in T as (i & Hi & [= <-]). cbn [fd_name].
  destruct (rust_reserved x) eqn:e; [exfalso; now apply (reserved_capital e Hi Cx Sx)|].
  rewrite snake_plain in Hi by easy. injection Hi as <-. f_equal. apply snake_exact in Sx.
  unfold snake. rewrite <- Sx. apply string_of_list_ascii_of_string.
Qed.
