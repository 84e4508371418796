(** Two versions of a protocol file. *)
From Verif Require Import Base SpecUtf8 RustTypes SerModel DeModel SpecXdr SpecTypes XdrFacts EncProofs DecProofs CodecProofs CodecLemmas Nom NomFacts Keyword Ast
  ParserModel SpecGrammar SpecParse ParseSound ParserLemmas ConstProofs Utf8 Utf8Proofs CaseModel SpecCase CaseProofs RustAst GenModel SpecGen SpecItems
  GenFacts GenTotal GenPanic GenLemmas SpecXdl GenSem SpecWire SpecEmit SpecConv SpecSize SpecUpgrade WireBase WireEnum WireLemmas WireEnums ExamplesGen ExamplesWire.
Set Implicit Arguments.
Unset Strict Implicit.
Local Open Scope string_scope.
Local Open Scope list_scope.

Definition early_text : text := chars
"enum op { GET = 0, PUT = 1 };
union call switch (op what) { case GET: void; case PUT: string text<8>; };
".
Definition early : list definition :=
  Eval vm_compute in match parse 900 early_text with GOk ds => ds | _ => [] end.
Lemma early_parses : greturns (fun n => parse n early_text) (GOk early).
Proof. apply (@by_parse 900). vm_compute. reflexivity. Qed.
Lemma early_good : good_spec early.
Proof. exact (c34 early_parses). Qed.
Definition early_ops : list assign :=
  [Assign "GET" (VConst (Decimal "0")); Assign "PUT" (VConst (Decimal "1"))].
Definition early_labels : list value := [VIdent "GET"; VIdent "PUT"].
Lemma early_member x s z : In (x, VConst (Decimal s)) (member_defs early) -> constant_value KI32 (Decimal s) = GOk z ->
  value_is early (VConst (Decimal s)) z.
Proof. intros I V. apply vi_number. apply (@member_stands early x KI32); [exact early_good|easy|easy]. Qed.
Lemma early_v0 : value_is early (VConst (Decimal "0")) 0.
Proof. apply (@early_member "GET"); [cbn; tauto|reflexivity]. Qed.
Lemma early_v1 : value_is early (VConst (Decimal "1")) 1.
Proof. apply (@early_member "PUT"); [cbn; tauto|reflexivity]. Qed.
Lemma early_type x t : assoc String.eqb x (type_defs early) = Some t -> first x (type_defs early) t.
Proof. apply assoc_first. Qed.
Lemma early_label x v z : assoc String.eqb x (const_defs early) = None -> assoc String.eqb x (member_defs early) = Some v ->
  value_is early v z -> value_is early (VIdent x) z.
Proof. intros N A V. apply vi_member with v; [|now apply assoc_first|easy]. now apply assoc_none. Qed.
Lemma early_value a z : In a early_ops -> value_is early (as_value a) z -> exists i, nth_error early_ops i = Some a /\ z = Z.of_nat i.
Proof.
  intros [<-|[<-|[]]] V; cbn in V.
  - exists 0%nat. split; [easy|]. exact (value_is_fun V early_v0).
  - exists 1%nat. split; [easy|]. exact (value_is_fun V early_v1).
Qed.
Lemma early_dense : dense early early_ops.
Proof.
  intros a z Ha V. destruct (early_value Ha V) as (i & H & ->). assert (L : nth_error early_ops i <> None) by congruence.
  apply nth_error_Some in L. unfold zlen. lia.
Qed.
Lemma early_label_value v : In v early_labels -> exists x z, v = VIdent x /\ x <> "FALSE" /\ x <> "TRUE" /\ value_is early v z /\ 0 <= z < 2 /\
  ((x = "GET" /\ z = 0) \/ (x = "PUT" /\ z = 1)).
Proof.
  intros [<-|[<-|[]]].
  - exists "GET", 0. repeat split; try discriminate; try lia; [|tauto]. eapply early_label; [reflexivity|reflexivity|exact early_v0].
  - exists "PUT", 1. repeat split; try discriminate; try lia; [|tauto]. eapply early_label; [reflexivity|reflexivity|exact early_v1].
Qed.
Section Early.
  Variables (fl : flags) (checks : bool).
  Let cfg := main_config fl checks.
  Lemma early_ops_ok : enum_ok cfg early early_ops.
  Proof.
    split; [discriminate|]. split; [apply camel_distinct_by; cbn; nodup|]. split; [cbn; repeat (constructor; [variant|]); constructor|]. split.
    - intros a [<-|[<-|[]]]; cbn; eexists; (split; [first [exact early_v0|exact early_v1]|]); lia.
    - intros a b z Ha Hb Va Vb. destruct (early_value Ha Va) as (i & Hi & ->), (early_value Hb Vb) as (j & Hj & E).
      apply Nat2Z.inj in E. congruence.
  Qed.
  Lemma early_kind : exists k, tkind cfg early (TsIdent "op") k /\ k <> KDense.
  Proof.
    destruct (enum_impl_std_trait cfg) eqn:st; [exists KStd|exists KPlain]; (split; [|discriminate]);
      [eapply tk_std|eapply tk_enum]; try eassumption; apply early_type; reflexivity.
  Qed.
  Lemma early_disc : disc_ok cfg early (TsIdent "op") early_labels.
  Proof.
    split; [unfold early_labels; nodup|]. split; [|split].
    - intros v Hv. destruct (early_label_value Hv) as (x & z & ? & ? & ? & ? & ? & _). exists x, z. repeat split; try easy; lia.
    - intros v w z Hv Hw Vv Vw. destruct (early_label_value Hv) as (x & z1 & -> & _ & _ & V1 & _ & C1), (early_label_value Hw) as (y & z2 & -> & _ & _ & V2 & _ & C2).
      rewrite (value_is_fun Vv V1) in *. pose proof (value_is_fun Vw V2). f_equal. intuition congruence.
    - destruct (union_impl_union cfg); [right|destruct early_kind as (k & K & _); eauto]. eexists _, _, _. split; [reflexivity|]. split; [apply early_type; reflexivity|].
      split; [intros _; exact early_dense|]. intros v [<-|[<-|[]]]; eexists;
        first [split; [now left|reflexivity]|split; [right; now left|reflexivity]|split; [right; right; now left|reflexivity]].
  Qed.
  Ltac finds := repeat match goal with
    | H : first ?x (type_defs early) _ |- _ => apply assoc_first in H; vm_compute in H;
        first [discriminate H|injection H as <-|injection H as <- <-|injection H as <- <- <-]
    end.
  Lemma early_holds y : holds early (TsIdent "op") y -> y = "op".
  Proof. inversion 1; subst; [easy|]. finds. Qed.
  Lemma early_body y : ~ holds early (TsIdent "body") y.
  Proof. inversion 1; subst; finds. Qed.
  Lemma early_ok : definitions_ok cfg early.
  Proof.
    constructor.
    - cbn. nodup.
    - cbn. nodup.
    - split; [apply camel_distinct_by; cbn; nodup|]. cbn. repeat (constructor; [tname|]). constructor.
    - exists (fun _ => O). split.
      + intros x y. cbn. intuition discriminate.
      + intros x d y H. cbn in H. intuition (match goal with H : _ = (x, _) |- _ => inversion H; subst end); cbn in *; discriminate.
    - constructor.
    - intros x t H. cbn in H.
      repeat (destruct H as [H|H]; [injection H as <- <-|]); [| |destruct H]; try exact Logic.I.
      + exact early_ops_ok.
      + split; [discriminate|]. split; [|split; [apply camel_distinct_by; cbn; nodup|split; [cbn; repeat (constructor; [variant|]); constructor|split; [|exact Logic.I]]]].
        * eexists _, _. split; [reflexivity|]. exact early_disc.
        * repeat apply Forall_cons; try apply Forall_nil; first [now left|right; exists KPlain; (split; [repeat constructor|]); split; discriminate|right; exists KPlain; (split; [constructor; eapply tk_typedef; [apply early_type; reflexivity|constructor|tauto]|]); split; discriminate].
    - exists (fun x => if String.eqb x "batch" then 3%nat else if String.eqb x "call" then 2%nat else 1%nat).
      intros x t H. cbn in H.
      repeat (destruct H as [H|H]; [injection H as <- <-|]); [| |destruct H]; try exact Logic.I.
      + intros d y [->|[Hd|(vs & Hd)]] HH; [|discriminate|].
        * inversion HH; subst. match goal with H : holds _ _ _ |- _ => apply early_holds in H; subst end. cbn; lia.
        * cbn in Hd. repeat (destruct Hd as [[= <- <-]|Hd]); try destruct Hd; inversion HH; subst; match goal with H : holds _ _ _ |- _ => first [now inversion H|now apply early_body in H] end.
  Qed.
  Lemma early_op dm z : 0 <= z < 2 -> xtype early dm (TsIdent "op") (XEnum z).
  Proof.
    intros R. eapply xt_name_enum; [apply early_type; reflexivity|].
    assert (H : z = 0 \/ z = 1) by lia. repeat destruct H as [->|H]; try subst z;
      first [eapply xt_enum; [now left|exact early_v0|lia]|eapply xt_enum; [right; now left|exact early_v1|lia]].
  Qed.
  Lemma early_exact : exact_defs cfg early.
  Proof.
    intros x t H. cbn in H.
    repeat (destruct H as [H|H]; [injection H as <- <-|]); [| |destruct H]; try exact Logic.I.
    - intros _. exact early_dense.
    - assert (V : forall v z, In v early_labels -> label_is early v z -> 0 <= z < 2).
      { intros v z Hv L. destruct (early_label_value Hv) as (x & z' & -> & N1 & N2 & V & R & _).
        destruct L as [[[= E] _]|[[[= E] _]|(_ & _ & V')]]; [easy|easy|]. now rewrite (value_is_fun V' V). }
      split; [|split; [easy|]].
      + intros t y v z [= <- <-] Hv L. exists (XEnum z). split; [|right; now right]. apply early_op. now apply V with v.
      + intros _. split; [|discriminate]. intros v z Hv L. now apply V with v.
  Qed.
End Early.

Definition later_text : text := chars
"const LIMIT = 64;
typedef string body<LIMIT>;
enum verb { GET = 0, PUT = 1, DROP = 2 };
union request switch (verb kind) { case GET: void; case PUT: body text; case DROP: hyper key; };
struct batch { request calls<>; };
".
Definition later : list definition :=
  Eval vm_compute in match parse 900 later_text with GOk ds => ds | _ => [] end.
Lemma later_parses : greturns (fun n => parse n later_text) (GOk later).
Proof. apply (@by_parse 900). vm_compute. reflexivity. Qed.
Lemma later_good : good_spec later.
Proof. exact (c34 later_parses). Qed.
Definition later_ops : list assign :=
  [Assign "GET" (VConst (Decimal "0")); Assign "PUT" (VConst (Decimal "1")); Assign "DROP" (VConst (Decimal "2"))].
Definition later_labels : list value := [VIdent "GET"; VIdent "PUT"; VIdent "DROP"].
Lemma later_member x s z : In (x, VConst (Decimal s)) (member_defs later) -> constant_value KI32 (Decimal s) = GOk z ->
  value_is later (VConst (Decimal s)) z.
Proof. intros I V. apply vi_number. apply (@member_stands later x KI32); [exact later_good|easy|easy]. Qed.
Lemma later_v0 : value_is later (VConst (Decimal "0")) 0.
Proof. apply (@later_member "GET"); [cbn; tauto|reflexivity]. Qed.
Lemma later_v1 : value_is later (VConst (Decimal "1")) 1.
Proof. apply (@later_member "PUT"); [cbn; tauto|reflexivity]. Qed.
Lemma later_v2 : value_is later (VConst (Decimal "2")) 2.
Proof. apply (@later_member "DROP"); [cbn; tauto|reflexivity]. Qed.
Lemma later_type x t : assoc String.eqb x (type_defs later) = Some t -> first x (type_defs later) t.
Proof. apply assoc_first. Qed.
Lemma later_label x v z : assoc String.eqb x (const_defs later) = None -> assoc String.eqb x (member_defs later) = Some v ->
  value_is later v z -> value_is later (VIdent x) z.
Proof. intros N A V. apply vi_member with v; [|now apply assoc_first|easy]. now apply assoc_none. Qed.
Lemma later_value a z : In a later_ops -> value_is later (as_value a) z -> exists i, nth_error later_ops i = Some a /\ z = Z.of_nat i.
Proof.
  intros [<-|[<-|[<-|[]]]] V; cbn in V.
  - exists 0%nat. split; [easy|]. exact (value_is_fun V later_v0).
  - exists 1%nat. split; [easy|]. exact (value_is_fun V later_v1).
  - exists 2%nat. split; [easy|]. exact (value_is_fun V later_v2).
Qed.
Lemma later_dense : dense later later_ops.
Proof.
  intros a z Ha V. destruct (later_value Ha V) as (i & H & ->). assert (L : nth_error later_ops i <> None) by congruence.
  apply nth_error_Some in L. unfold zlen. lia.
Qed.
Lemma later_label_value v : In v later_labels -> exists x z, v = VIdent x /\ x <> "FALSE" /\ x <> "TRUE" /\ value_is later v z /\ 0 <= z < 3 /\
  ((x = "GET" /\ z = 0) \/ (x = "PUT" /\ z = 1) \/ (x = "DROP" /\ z = 2)).
Proof.
  intros [<-|[<-|[<-|[]]]].
  - exists "GET", 0. repeat split; try discriminate; try lia; [|tauto]. eapply later_label; [reflexivity|reflexivity|exact later_v0].
  - exists "PUT", 1. repeat split; try discriminate; try lia; [|tauto]. eapply later_label; [reflexivity|reflexivity|exact later_v1].
  - exists "DROP", 2. repeat split; try discriminate; try lia; [|tauto]. eapply later_label; [reflexivity|reflexivity|exact later_v2].
Qed.
Section Later.
  Variables (fl : flags) (checks : bool).
  Let cfg := main_config fl checks.
  Lemma later_ops_ok : enum_ok cfg later later_ops.
  Proof.
    split; [discriminate|]. split; [apply camel_distinct_by; cbn; nodup|]. split; [cbn; repeat (constructor; [variant|]); constructor|]. split.
    - intros a [<-|[<-|[<-|[]]]]; cbn; eexists; (split; [first [exact later_v0|exact later_v1|exact later_v2]|]); lia.
    - intros a b z Ha Hb Va Vb. destruct (later_value Ha Va) as (i & Hi & ->), (later_value Hb Vb) as (j & Hj & E).
      apply Nat2Z.inj in E. congruence.
  Qed.
  Lemma later_kind : exists k, tkind cfg later (TsIdent "verb") k /\ k <> KDense.
  Proof.
    destruct (enum_impl_std_trait cfg) eqn:st; [exists KStd|exists KPlain]; (split; [|discriminate]);
      [eapply tk_std|eapply tk_enum]; try eassumption; apply later_type; reflexivity.
  Qed.
  Lemma later_disc : disc_ok cfg later (TsIdent "verb") later_labels.
  Proof.
    split; [unfold later_labels; nodup|]. split; [|split].
    - intros v Hv. destruct (later_label_value Hv) as (x & z & ? & ? & ? & ? & ? & _). exists x, z. repeat split; try easy; lia.
    - intros v w z Hv Hw Vv Vw. destruct (later_label_value Hv) as (x & z1 & -> & _ & _ & V1 & _ & C1), (later_label_value Hw) as (y & z2 & -> & _ & _ & V2 & _ & C2).
      rewrite (value_is_fun Vv V1) in *. pose proof (value_is_fun Vw V2). f_equal. intuition congruence.
    - destruct (union_impl_union cfg); [right|destruct later_kind as (k & K & _); eauto]. eexists _, _, _. split; [reflexivity|]. split; [apply later_type; reflexivity|].
      split; [intros _; exact later_dense|]. intros v [<-|[<-|[<-|[]]]]; eexists;
        first [split; [now left|reflexivity]|split; [right; now left|reflexivity]|split; [right; right; now left|reflexivity]].
  Qed.
  Ltac finds := repeat match goal with
    | H : first ?x (type_defs later) _ |- _ => apply assoc_first in H; vm_compute in H;
        first [discriminate H|injection H as <-|injection H as <- <-|injection H as <- <- <-]
    end.
  Lemma later_holds y : holds later (TsIdent "verb") y -> y = "verb".
  Proof. inversion 1; subst; [easy|]. finds. Qed.
  Lemma later_body y : ~ holds later (TsIdent "body") y.
  Proof. inversion 1; subst; finds; try discriminate. inversion H2. Qed.
  Lemma later_ok : definitions_ok cfg later.
  Proof.
    constructor.
    - cbn. nodup.
    - cbn. nodup.
    - split; [apply camel_distinct_by; cbn; nodup|]. cbn. repeat (constructor; [tname|]). constructor.
    - exists (fun _ => O). split.
      + intros x y. cbn. intuition discriminate.
      + intros x d y H. cbn in H. intuition (match goal with H : _ = (x, _) |- _ => inversion H; subst end); cbn in *; discriminate.
    - constructor; [|constructor]. split; [split; [discriminate|]; intros c Hc Sc|].
      + vm_compute in Hc, Sc. intuition (subst; discriminate).
      + cbn. exists 64. split; [|lia]. apply (@const_stands later "LIMIT" KU32); [exact later_good|now left|reflexivity].
    - intros x t H. cbn in H.
      repeat (destruct H as [H|H]; [injection H as <- <-|]); [| | | |destruct H]; try exact Logic.I.
      + exact later_ops_ok.
      + split; [discriminate|]. split; [|split; [apply camel_distinct_by; cbn; nodup|split; [cbn; repeat (constructor; [variant|]); constructor|split; [|exact Logic.I]]]].
        * eexists _, _. split; [reflexivity|]. exact later_disc.
        * repeat apply Forall_cons; try apply Forall_nil; first [now left|right; exists KPlain; (split; [repeat constructor|]); split; discriminate|right; exists KPlain; (split; [constructor; eapply tk_typedef; [apply later_type; reflexivity|constructor|tauto]|]); split; discriminate].
      + split.
        * exists ["calls"]. split; [repeat constructor|]. split; [apply snake_distinct_by; cbn; nodup|]. constructor; [fname|]. constructor.
        * constructor; [|constructor]. exists KPlain. split; [|discriminate]. apply dk_vararray with KPlain; [|now left]. eapply tk_union. apply later_type. reflexivity.
    - exists (fun x => if String.eqb x "batch" then 3%nat else if String.eqb x "request" then 2%nat else 1%nat).
      intros x t H. cbn in H.
      repeat (destruct H as [H|H]; [injection H as <- <-|]); [| | | |destruct H]; try exact Logic.I.
      + intros d y [->|[Hd|(vs & Hd)]] HH; [|discriminate|].
        * inversion HH; subst. match goal with H : holds _ _ _ |- _ => apply later_holds in H; subst end. cbn; lia.
        * cbn in Hd. repeat (destruct Hd as [[= <- <-]|Hd]); try destruct Hd; inversion HH; subst; match goal with H : holds _ _ _ |- _ => first [now inversion H|now apply later_body in H] end.
      + intros d y [<-|[]] HH. inversion HH.
  Qed.
  Lemma later_op dm z : 0 <= z < 3 -> xtype later dm (TsIdent "verb") (XEnum z).
  Proof.
    intros R. eapply xt_name_enum; [apply later_type; reflexivity|].
    assert (H : z = 0 \/ z = 1 \/ z = 2) by lia. repeat destruct H as [->|H]; try subst z;
      first [eapply xt_enum; [now left|exact later_v0|lia]|eapply xt_enum; [right; now left|exact later_v1|lia]|eapply xt_enum; [right; right; now left|exact later_v2|lia]].
  Qed.
  Lemma later_exact : exact_defs cfg later.
  Proof.
    intros x t H. cbn in H.
    repeat (destruct H as [H|H]; [injection H as <- <-|]); [| | | |destruct H]; try exact Logic.I.
    - intros _. exact later_dense.
    - assert (V : forall v z, In v later_labels -> label_is later v z -> 0 <= z < 3).
      { intros v z Hv L. destruct (later_label_value Hv) as (x & z' & -> & N1 & N2 & V & R & _).
        destruct L as [[[= E] _]|[[[= E] _]|(_ & _ & V')]]; [easy|easy|]. now rewrite (value_is_fun V' V). }
      split; [|split; [easy|]].
      + intros t y v z [= <- <-] Hv L. exists (XEnum z). split; [|right; now right]. apply later_op. now apply V with v.
      + intros _. split; [|discriminate]. intros v z Hv L. now apply V with v.
  Qed.
End Later.

(** ** The second is a later version of the first *)
Lemma early_get : value_is early (VIdent "GET") 0.
Proof. eapply early_label; [reflexivity|reflexivity|exact early_v0]. Qed.
Lemma early_put : value_is early (VIdent "PUT") 1.
Proof. eapply early_label; [reflexivity|reflexivity|exact early_v1]. Qed.
Lemma later_get : value_is later (VIdent "GET") 0.
Proof. eapply later_label; [reflexivity|reflexivity|exact later_v0]. Qed.
Lemma later_put : value_is later (VIdent "PUT") 1.
Proof. eapply later_label; [reflexivity|reflexivity|exact later_v1]. Qed.
Lemma label_number ds x z z' : x <> "FALSE" -> x <> "TRUE" -> value_is ds (VIdent x) z' -> label_is ds (VIdent x) z -> z = z'.
Proof. intros N1 N2 V [[[= E] _]|[[[= E] _]|(_ & _ & W)]]; [easy|easy|]. exact (value_is_fun W V). Qed.
Lemma label_number_is ds x z : x <> "FALSE" -> x <> "TRUE" -> value_is ds (VIdent x) z -> label_is ds (VIdent x) z.
Proof. intros N1 N2 V. right. right. split; [congruence|]. split; [congruence|easy]. Qed.
Lemma early_8 : value_is early (VConst (Decimal "8")) 8.
Proof.
  apply vi_number. apply (@stands_by KU32); [|reflexivity]. right. exists [], "8"%char, []. split; [reflexivity|]. split; [now left|].
  split; [reflexivity|]. split; [discriminate|constructor].
Qed.
Lemma later_limit : value_is later (VIdent "LIMIT") 64.
Proof.
  eapply vi_const; [apply assoc_first; reflexivity|]. apply vi_number. apply (@const_stands later "LIMIT" KU32); [exact later_good|now left|reflexivity].
Qed.

(** types and what they are called later *)
Definition called (x x' : string) : Prop := x = "op" /\ x' = "verb" \/ x = "call" /\ x' = "request".
Lemma early_later : upgrade early later called.
Proof.
  intros x x' [[-> ->]|[-> ->]].
  - eexists _, _. split; [apply early_type; reflexivity|]. split; [apply later_type; reflexivity|].
    intros a z I V. destruct (@early_value a z I V) as (i & N & ->).
    assert (L : (i < 2)%nat) by (change 2%nat with (length early_ops); apply nth_error_Some; congruence).
    assert (H : i = 0%nat \/ i = 1%nat) by lia. destruct H as [->| ->]; injection N as <-; eexists.
    + split; [now left|exact later_v0].
    + split; [right; now left|exact later_v1].
  - eexists _, _. split; [apply early_type; reflexivity|]. split; [apply later_type; reflexivity|].
    split; [|split; [|discriminate]].
    + eexists _, _, _, _. split; [reflexivity|]. split; [reflexivity|]. apply gs_name. now left.
    + intros vs arm v z I Iv L. cbn in I. destruct I as [[= <- <-]|[[= <- <-]|[]]]; destruct Iv as [<-|[]].
      * apply (@label_number early "GET" z 0) in L as ->; [|discriminate|discriminate|exact early_get].
        eexists _, _, _. split; [now left|]. split; [now left|]. split; [|apply gr_void].
        apply label_number_is; [discriminate|discriminate|exact later_get].
      * apply (@label_number early "PUT" z 1) in L as ->; [|discriminate|discriminate|exact early_put].
        eexists _, _, _. split; [right; now left|]. split; [now left|].
        split; [apply label_number_is; [discriminate|discriminate|exact later_put]|].
        eapply gr_typedef; [apply later_type; reflexivity|].
        constructor. right. eexists _, _, 8, 64. split; [reflexivity|]. split; [reflexivity|].
        split; [exact early_8|]. split; [exact later_limit|lia].
Qed.

(** a value of the first *)
Definition early_call : xv := XUnion (XEnum 1) (XString [x68; x69]).
Lemma early_call_value dm : xtype early dm (TsIdent "call") early_call.
Proof.
  eapply xt_name_union; [apply early_type; reflexivity|]. eapply xt_case.
  - apply early_op. lia.
  - right. right. reflexivity.
  - right. now left.
  - now left.
  - apply label_number_is; [discriminate|discriminate|exact early_put].
  - constructor; [apply utf8_ok_spec; reflexivity|]. split; [reflexivity|]. exists 8. split; [exact early_8|]. vm_compute. discriminate.
Qed.

(** the programs *)
Definition early_file : file := Eval vm_compute in file_of plain_config early.
Definition early_env : env := Eval vm_compute in env_of early_file.
Lemma early_generated : generated plain_config early early_file early_env.
Proof. gens. Qed.
Definition later_file : file := Eval vm_compute in file_of union_config later.
Definition later_env : env := Eval vm_compute in env_of later_file.
Lemma later_generated : generated union_config later later_file later_env.
Proof. gens. Qed.
Definition call_bytes : list byte := [x00; x00; x00; x01; x00; x00; x00; x02; x68; x69; x00; x00].
Lemma early_decodes : exists v, from_bytes 40 early_env (TRef "Call") call_bytes = Ok v.
Proof. eexists. vm_compute. reflexivity. Qed.
Lemma later_decodes : exists v, from_bytes 40 later_env (TRef "Request") call_bytes = Ok v.
Proof. eexists. vm_compute. reflexivity. Qed.
(** what only the later program knows is not misread by the earlier one *)
Lemma early_refuses : exists e, from_bytes 40 early_env (TRef "Call") [x00; x00; x00; x02; x00; x00; x00; x00; x00; x00; x00; x07] = Err e.
Proof. eexists. vm_compute. reflexivity. Qed.
