(** Decoding never gets stuck on a type whose names are defined, so generated
    types are decoded to a value or an error. *)
From Verif Require Import Base RustTypes SpecXdr SpecTypes XdrFacts SpecMisc SerModel DeModel SpecDecode EncProofs ReadFacts RvalFacts DecProofs CodecProofs TotalProofs NormProofs CodecLemmas
  Nom NomFacts Keyword Ast ParserModel SpecGrammar SpecParse
  ParseSound ParserLemmas ConstProofs CaseModel SpecCase CaseProofs RustAst GenModel SpecGen SpecItems GenFacts GenTotal GenPanic GenLemmas
  SpecXdl GenSem SpecWire WireBase WireEnum WireBack WireEnums SpecEmit EmitBase EmitProofs EmitFlags EmitItems EmitNames EmitRun EmitStop.
Set Implicit Arguments.
Unset Strict Implicit.
Local Open Scope list_scope.

(** ** Types that mention defined names only *)
Section Closed.
  Variable E : env.
  Fixpoint closed (t : ty) : Prop :=
    let all := fold_right (fun t P => closed t /\ P) True in
    let allf := fold_right (fun '(_, t) P => closed t /\ P) True in
    match t with
    | TMap k v => closed k /\ closed v
    | TOption t | TNewtype t | TBox t | TSeq t | TArray _ t => closed t
    | TTuple ts | TTupleStruct ts => all ts
    | TStruct ts => allf ts
    | TEnum vss =>
        fold_right (fun '(_, sh) P =>
          match sh with
          | VUnit => True
          | VNewtype t => closed t
          | VTuple ts => all ts
          | VStruct ts => allf ts
          end /\ P) True vss
    | TIndexer vss _ _ _ => fold_right (fun '(_, ts) P => all ts /\ P) True vss
    | TUnion vss disc _ _ =>
        closed disc /\ fold_right (fun '(_, o) P => match o with Some ts => all ts | None => True end /\ P) True vss
    | TRef x => lookup E x <> None
    | _ => True
    end.
End Closed.

Lemma bind_nostuck {A B} (m : res A) (k : A -> res B) : m <> Stuck -> (forall a, m = Ok a -> k a <> Stuck) -> (x <- m;; k x) <> Stuck.
Proof. destruct m; cbn; try congruence. auto. Qed.
Definition moves {A} (p : parser A) : Prop := forall i, p i <> Stuck.

Section NoStuck.
  Context {A : Type}.
  Lemma read_seq_nostuck (ps : list (parser A)) i : Forall moves ps -> read_seq ps i <> Stuck.
  Proof.
    intros H. revert i. induction H as [|p ps Hp _ IH]; intros i; cbn [read_seq]; [discriminate|].
    apply bind_nostuck; [apply Hp|]. intros [a j] _. apply bind_nostuck; [apply IH|]. intros [? ?] _; discriminate.
  Qed.
  Lemma next_nostuck (p : parser A) s : moves p -> next_element p s <> Stuck.
  Proof. intros H. destruct s as [c i]. unfold next_element. destruct (c =? 0); [discriminate|]. apply bind_nostuck; [apply H|]. intros [? ?] _. discriminate. Qed.
  Lemma visit_fields_nostuck (ps : list (parser A)) pos s : Forall moves ps -> visit_fields ps pos s <> Stuck.
  Proof.
    intros H. revert pos s. induction H as [|p ps Hp _ IH]; intros pos s; cbn [visit_fields]; [discriminate|].
    apply bind_nostuck; [now apply next_nostuck|]. intros [[a|] j] _; [|discriminate]. apply bind_nostuck; [apply IH|]. intros [? ?] _; discriminate.
  Qed.
  Lemma visit_fields_unwrap_nostuck (ps : list (parser A)) s : Forall moves ps -> visit_fields_unwrap ps s <> Stuck.
  Proof.
    intros H. revert s. induction H as [|p ps Hp _ IH]; intros s; cbn [visit_fields_unwrap]; [discriminate|].
    apply bind_nostuck; [now apply next_nostuck|]. intros [[a|] j] _; [|discriminate]. apply bind_nostuck; [apply IH|]. intros [? ?] _; discriminate.
  Qed.
End NoStuck.

Lemma read_nostuck len i : read len i <> Stuck.
Proof. unfold read. now destruct (_ <? _). Qed.
Ltac steps := repeat first [apply bind_nostuck; [|intros [? ?] _] | apply read_nostuck | discriminate].
Lemma u32_nostuck i : read_u32 i <> Stuck. Proof. unfold read_u32. steps. Qed.
Lemma i32_nostuck i : read_i32 i <> Stuck. Proof. unfold read_i32. steps. Qed.
Lemma u64_nostuck i : read_u64 i <> Stuck. Proof. unfold read_u64. steps. Qed.
Lemma int_nostuck s w i : de_int s w i <> Stuck.
Proof. destruct s, w; cbn; unfold read_i32, read_i64, read_u32, read_u64; steps. Qed.
Lemma slice_nostuck n i : slice_from n i <> Stuck.
Proof. unfold slice_from. now destruct (_ <? _). Qed.
Lemma string_nostuck i : read_string i <> Stuck.
Proof.
  unfold read_string. apply bind_nostuck; [apply u32_nostuck|]. intros [z j] _. apply bind_nostuck; [apply read_nostuck|]. intros [v k] _.
  destruct (Utf8.utf8_ok v); [|discriminate]. destruct (_ <? _); [|discriminate]. apply bind_nostuck; [apply slice_nostuck|discriminate].
Qed.
Lemma bytes_nostuck i : read_bytes i <> Stuck.
Proof.
  unfold read_bytes. apply bind_nostuck; [apply u32_nostuck|]. intros [z j] _. apply bind_nostuck; [apply read_nostuck|]. intros [v k] _.
  destruct (_ <? _); [|discriminate]. apply bind_nostuck; [apply slice_nostuck|discriminate].
Qed.
Lemma index_nostuck k i : de_variant_index k i <> Stuck.
Proof.
  apply bind_nostuck; [apply i32_nostuck|]. intros [z j] _. destruct (z <? 0); [discriminate|]. destruct (z <? Z.of_nat k); discriminate.
Qed.

Lemma deser_nostuck E (CE : env_all (closed E) E) : forall n t i, closed E t -> deser n E t i <> Stuck.
Proof.
  induction n as [|n IH]; intros t i T; [discriminate|].
  assert (One : forall t, closed E t -> moves (deser n E t)) by (intros t' T' j; now apply IH).
  assert (All : forall ts, Forall (closed E) ts -> Forall moves (map (deser n E) ts)).
  { intros ts F. apply Forall_forall. intros p Hp. apply in_map_iff in Hp as (t' & <- & I). rewrite Forall_forall in F. auto. }
  assert (Allf : forall ts : list (string * ty), Forall (closed E) (map snd ts) -> Forall moves (map (fun f => deser n E (snd f)) ts)).
  { intros ts F. rewrite <- (map_map snd (deser n E)). auto. }
  destruct t; cbn [closed] in T; cbn [deser]; try discriminate;
    try (apply bind_nostuck; [|intros [? ?] _; discriminate]; auto using u32_nostuck, u64_nostuck, int_nostuck, string_nostuck, bytes_nostuck).
  - apply bind_nostuck; [apply u32_nostuck|]. intros [z j] _. destruct (Utf8.char_ok z); discriminate.
  - apply bind_nostuck; [apply u32_nostuck|]. intros [z j] Hr. destruct (z =? 0); [discriminate|]. apply bind_nostuck; [auto|intros [? ?] _; discriminate].
  - auto.
  - auto.
  - apply bind_nostuck; [apply u32_nostuck|]. intros [z j] Hr. apply read_u32_inv in Hr as (w & _ & U). apply unsigned_range in U.
    apply bind_nostuck; [|intros [? ?] _; discriminate].
    replace z with (Z.of_nat (Z.to_nat z)) by lia. rewrite visit_vec_seq. apply read_seq_nostuck. apply forall_repeat. auto.
  - apply visit_fields_nostuck. apply forall_repeat. auto.
  - apply visit_fields_nostuck. apply All. now apply NormProofs.fold_all.
  - apply visit_fields_nostuck. apply All. now apply NormProofs.fold_all.
  - apply visit_fields_nostuck. apply Allf. now apply fold_allf.
  - destruct T as [T1 T2]. apply bind_nostuck; [apply u32_nostuck|]. intros [z j] Hr. apply read_u32_inv in Hr as (w & _ & U). apply unsigned_range in U.
    apply bind_nostuck; [|intros [? ?] _; discriminate].
    replace z with (Z.of_nat (Z.to_nat z)) by lia. rewrite visit_map_seq. apply bind_nostuck; [|intros [? ?] _; discriminate].
    apply read_seq_nostuck. apply forall_repeat. intros x. apply bind_nostuck; [now apply One|]. intros [k y] _.
    apply bind_nostuck; [now apply IH|]. intros [? ?] _; discriminate.
  - apply bind_nostuck; [apply index_nostuck|]. intros [k j] Hk.
    assert (Lk : (k < length vs)%nat) by now apply de_variant_index_inv in Hk as (w & _ & _ & L).
    destruct (nth_error vs k) as [[name sh]|] eqn:Hn; [|apply nth_error_None in Hn; lia].
    pose proof (fold_nth T Hn) as Ht. cbn in Ht.
    destruct sh as [|t|ts|ts]; try discriminate; (apply bind_nostuck; [|intros [? ?] _; discriminate]).
    + auto.
    + apply visit_fields_nostuck. apply All. now apply NormProofs.fold_all.
    + apply visit_fields_nostuck. apply Allf. now apply fold_allf.
  - destruct (de_opaque_fixed_cases n0 i) as [(bs & p & r & _ & _ & _ & _ & ->)|[_ ->]]; discriminate.
  - apply bind_nostuck; [apply u32_nostuck|]. intros [z j] Hr. apply read_u32_inv in Hr as (w & _ & U). apply unsigned_range in U as [Hz _].
    destruct (@enumerate_u8_cases z j Hz) as [(bs & p & r & _ & _ & _ & _ & ->)|[_ ->]]; discriminate.
  - apply bind_nostuck; [apply i32_nostuck|]. intros [z j] _. now destruct (with_dflt _ _).
  - apply bind_nostuck; [apply next_nostuck; intros j; apply i32_nostuck|]. intros [[z|] j] _; [|discriminate].
    destruct (with_dflt _ _) as [name| |]; try discriminate. destruct (find_variant name vs 0) as [[k ts]|] eqn:Hf; [|discriminate].
    apply find_variant_spec in Hf as (x & _ & Hn & _). pose proof (fold_nth T Hn) as Ht. apply NormProofs.fold_all in Ht.
    apply bind_nostuck; [|intros [? ?] _; discriminate]. apply visit_fields_unwrap_nostuck. now apply All.
  - destruct T as (TD & F). apply bind_nostuck; [apply next_nostuck; now apply One|]. intros [[z|] j] _; [|discriminate].
    destruct (with_dflt _ _) as [name| |]; try discriminate. destruct (find_variant name vs 0) as [[k [ts|]]|] eqn:Hf; try discriminate.
    apply find_variant_spec in Hf as (x & _ & Hn & _). pose proof (fold_nth F Hn) as Ht. apply NormProofs.fold_all in Ht.
    apply bind_nostuck; [|intros [? ?] _; discriminate]. apply visit_fields_unwrap_nostuck. now apply All.
  - destruct (lookup E name) as [t'|] eqn:Hl; [|easy]. apply IH. now apply CE with name.
Qed.
Lemma from_bytes_nostuck E t n i : env_all (closed E) E -> closed E t -> from_bytes n E t i <> Stuck.
Proof. intros CE C. apply bind_nostuck; [now apply deser_nostuck|]. intros [v r] _. destruct r; discriminate. Qed.

(** ** Generated types *)
Section Generated.
  Variables (f : file) (E : env).
  Hypothesis HE : file_env f = Some E.

  Lemma find_lookup x i : find_item f x = Some i -> lookup E x <> None.
  Proof.
    intros H. apply find_some in H as [I H]. apply String.eqb_eq in H. subst x.
    unfold file_env in HE. destruct (omap_in_l HE I) as ([y T] & IE & Q). destruct (item_sem f i) as [T'|]; [|discriminate]. injection Q as <- <-.
    unfold lookup. clear - IE. induction E as [|[z U] l IH]; [easy|]. cbn. match goal with |- context [String.eqb ?a ?b] => destruct (String.eqb_spec a b) as [EQ|NE] end; [discriminate|].
    destruct IE as [IE|IE]; [injection IE as IE _; congruence|auto].
  Qed.
  Lemma ty_closed t : forall T, ty_sem f t = Some T -> closed E T.
  Proof.
    induction t; cbn [ty_sem]; intros T H; try (injection H as <-; easy).
    - destruct (find_item f x) as [i|] eqn:FI; [|discriminate]. injection H as <-. cbn. now apply find_lookup with i.
    - apply obind_some in H as (T1 & H1 & H). apply obind_some in H as (n & _ & H). injection H as <-. cbn. now apply IHt.
    - destruct (ty_sem f t); [|discriminate]. injection H as <-. cbn. now apply IHt.
    - destruct (ty_sem f t); [|discriminate]. injection H as <-. cbn. now apply IHt.
    - destruct (ty_sem f t); [|discriminate]. injection H as <-. cbn. now apply IHt.
  Qed.
  Lemma field_closed a t T : field_sem f a t = Some T -> closed E T.
  Proof.
    destruct a; cbn [field_sem].
    - apply ty_closed.
    - destruct t as [| | | | | |[[|] []| | | | | | | | | | |] len cast| | | | |]; try discriminate. destruct (array_len f len cast); [|discriminate]. intros [= <-]. easy.
    - destruct t as [| | | | | | |[[|] []| | | | | | | | | | |]| | | |]; try discriminate. intros [= <-]. easy.
    - destruct t; try discriminate. intros H. apply obind_some in H as (e & _ & H). unfold signed_sem in H.
      destruct (en_as_ref e), (en_try_from e); try discriminate. apply obind_some in H as (zs & _ & H). apply obind_some in H as (arms & _ & H).
      apply guard_some in H as [_ H]. injection H as <-. easy.
  Qed.
  Lemma tys_closed ts Ts : omap (ty_sem f) ts = Some Ts -> fold_right (fun t P => closed E t /\ P) True Ts.
  Proof. intros H. apply EmitRun.fold_all. intros T HT. destruct (omap_in H HT) as (t & _ & Q). now apply ty_closed with t. Qed.
  Lemma pairs_closed {B} (P : B -> Prop) (l : list (string * B)) : (forall p, In p l -> P (snd p)) -> fold_right (fun '(_, b) Q => P b /\ Q) True l.
  Proof. induction l as [|[x b] l IH]; cbn; [easy|]. intros H. split; [exact (H _ (or_introl eq_refl))|apply IH; intros; apply H; now right]. Qed.
  Lemma indexer_closed vs ix T : indexer_sem vs ix = Some T ->
    (forall p, In p vs -> fold_right (fun t P => closed E t /\ P) True (snd p)) -> closed E T.
  Proof.
    intros H V. unfold indexer_sem in H. apply obind_some in H as (names & _ & H). apply obind_some in H as (index & _ & H).
    apply obind_some in H as (other & _ & H). apply guard_some in H as [_ H]. injection H as <-. cbn [closed]. now apply pairs_closed with (P := fun ts => fold_right (fun t P => closed E t /\ P) True ts).
  Qed.
  Lemma item_closed i T : item_sem f i = Some T -> closed E T.
  Proof.
    destruct i as [x t|e|s|u]; cbn [item_sem]; intros S.
    - now apply ty_closed in S.
    - unfold enum_sem in S. apply guard_some in S as [_ S].
      assert (P : closed E (TEnum (map (fun x => (x, VUnit)) (enum_names e)))) by (cbn; generalize (enum_names e); induction l; cbn; easy).
      destruct (en_derive e); try discriminate; destruct (en_indexer e) as [ix|] eqn:EX; try discriminate; destruct (en_as_ref e); try discriminate.
      + apply obind_some in S as (? & _ & S). now injection S as <-.
      + now injection S as <-.
      + apply indexer_closed with (1 := S). intros p Hp. apply in_map_iff in Hp as (y' & <- & _). easy.
    - unfold struct_sem in S. destruct (omap _ _) as [l|] eqn:EO; [|discriminate]. injection S as <-. cbn. apply pairs_closed. intros [x T] Hp.
      destruct (omap_in EO Hp) as (fd & _ & H). destruct (field_sem _ _ _) eqn:FS; [|discriminate]. injection H as _ <-. now apply field_closed in FS.
    - unfold union_sem in S. apply guard_some in S as [_ S].
      destruct (un_derive u); try discriminate; destruct (un_indexer u) as [ix|] eqn:EX; try discriminate; destruct (un_union u) as [ui|] eqn:EU; try discriminate.
      + destruct (omap _ _) as [vs|] eqn:EV; [|discriminate]. injection S as <-. cbn.
        refine (pairs_closed (P := fun sh => match sh with VUnit => True | VNewtype t => closed E t | VTuple ts => _ ts | VStruct ts => _ ts end) _). intros [x' sh] Hp.
        destruct (omap_in EV Hp) as (va & _ & H). unfold serde_variant_sem in H. apply obind_some in H as (x'' & _ & H).
        destruct (va_tys va) as [|t [|]]; [destruct (va_attr va); try discriminate; now injection H as _ <-| |discriminate].
        destruct (field_sem _ _ _) eqn:FS; [|discriminate]. injection H as _ <-. cbn. now apply field_closed in FS.
      + apply obind_some in S as (vs & HV & S). apply indexer_closed with (1 := S). intros [z' ts] Hp. destruct (omap_in HV Hp) as (va & Hva & H).
        unfold indexer_variant_sem in H. apply obind_some in H as (? & _ & H). destruct (va_attr va); try discriminate.
        destruct (omap _ (va_tys va)) eqn:EO; [|discriminate]. injection H as _ <-. now apply tys_closed in EO.
      + unfold union_impl_sem in S. apply obind_some in S as (disc & _ & S). apply obind_some in S as (dt & HD & S).
        apply obind_some in S as (variants & HV & S). apply obind_some in S as (names & _ & S). apply obind_some in S as (other & _ & S).
        apply guard_some in S as [_ S]. injection S as <-. cbn [closed]. split; [now apply ty_closed in HD|].
        refine (pairs_closed (P := fun o => match o with Some ts => fold_right (fun t P => closed E t /\ P) True ts | None => True end) _).
        intros [x o] Hx. destruct (omap_in HV Hx) as (va & _ & Q). unfold union_variant_sem in Q. apply obind_some in Q as (x' & _ & Q).
        destruct (va_attr va); try discriminate. destruct (va_tys va) as [|t ts]; [discriminate|]. apply guard_some in Q as [_ Q].
        destruct (omap (ty_sem f) ts) as [Ts|] eqn:ET; [|discriminate]. injection Q as _ <-. now apply tys_closed in ET.
  Qed.
  Lemma env_closed : env_all (closed E) E.
  Proof. intros x T L. destruct (env_item HE L) as (i & _ & _ & S). now apply item_closed with i. Qed.
End Generated.

(** decoding a generated type ends with a value or an error *)
Lemma generated_outcome cfg ds f E x T i : greturns (fun n => gen_code n cfg ds) (GOk f) -> file_env f = Some E ->
  compiles f -> self_free ds -> lookup E x = Some T -> zlen i mod 4 = 0 ->
  (exists v, returns (fun n => from_bytes n E (TRef x) i) (Ok v)) \/ exists e, returns (fun n => from_bytes n E (TRef x) i) (Err e).
Proof.
  intros G HE C SF L U. destruct (generated_terminates i G HE C SF L) as (r & NF & k & H).
  pose proof (H k (Nat.le_refl k)) as Hk. pose proof (@generated_no_panic cfg ds f E x i k G HE U) as NP.
  assert (NS : from_bytes k E (TRef x) i <> Stuck) by (apply from_bytes_nostuck; [now apply env_closed with f|cbn; congruence]).
  destruct r as [v|e| | |]; try congruence; [left; exists v|right; exists e]; (split; [discriminate|now exists k]).
Qed.
