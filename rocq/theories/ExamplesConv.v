(** Concrete protocol files for the theorems about decoded values. *)
From Verif Require Import Base SpecUtf8 RustTypes SerModel DeModel SpecXdr SpecTypes XdrFacts EncProofs DecProofs CodecProofs CodecLemmas Nom NomFacts Keyword Ast
  ParserModel SpecGrammar SpecParse ParseSound ParserLemmas ConstProofs Utf8 Utf8Proofs CaseModel SpecCase CaseProofs RustAst GenModel SpecGen SpecItems
  GenFacts GenTotal GenPanic GenLemmas SpecXdl GenSem SpecWire SpecEmit SpecConv SpecSize WireBase WireEnum WireLemmas WireEnums ExamplesGen ExamplesWire.
Set Implicit Arguments.
Unset Strict Implicit.
Local Open Scope string_scope.
Local Open Scope list_scope.

(** ** A protocol file without gaps and default arms *)
Definition exact_text : text := chars
"const MAX = 16;
enum color { RED = 0, GREEN = 1, DEEP_BLUE = 2 };
typedef string label<MAX>;
struct point { int x; label name; point *next; color hue; };
union shape switch (color c) { case RED: point at; case GREEN: void; case DEEP_BLUE: opaque data<>; };
union maybe switch (bool b) { case FALSE: void; case TRUE: double v; };
union rate switch (bool fine) { case FALSE: float rough; case TRUE: unsigned int parts; };
".
Definition exact : list definition :=
  Eval vm_compute in match parse 900 exact_text with GOk ds => ds | _ => [] end.
Lemma exact_parses : greturns (fun n => parse n exact_text) (GOk exact).
Proof. apply (@by_parse 900). vm_compute. reflexivity. Qed.
Lemma exact_good : good_spec exact.
Proof. exact (c34 exact_parses). Qed.

Definition colors : list assign :=
  [Assign "RED" (VConst (Decimal "0")); Assign "GREEN" (VConst (Decimal "1")); Assign "DEEP_BLUE" (VConst (Decimal "2"))].

Section Exact.
  Variables (fl : flags) (checks : bool).
  Let cfg := main_config fl checks.

  Lemma ex_member x s z : In (x, VConst (Decimal s)) (member_defs exact) -> constant_value KI32 (Decimal s) = GOk z ->
    value_is exact (VConst (Decimal s)) z.
  Proof. intros I V. apply vi_number. apply (@member_stands exact x KI32); [exact exact_good|easy|easy]. Qed.
  Lemma ex_red : value_is exact (VConst (Decimal "0")) 0.
  Proof. apply (@ex_member "RED"); [cbn; tauto|reflexivity]. Qed.
  Lemma ex_green : value_is exact (VConst (Decimal "1")) 1.
  Proof. apply (@ex_member "GREEN"); [cbn; tauto|reflexivity]. Qed.
  Lemma ex_blue : value_is exact (VConst (Decimal "2")) 2.
  Proof. apply (@ex_member "DEEP_BLUE"); [cbn; tauto|reflexivity]. Qed.
  Lemma ex_16 : stands_for (Decimal "16") 16.
  Proof. apply (@const_stands exact "MAX" KU32); [exact exact_good|now left|reflexivity]. Qed.

  Lemma ex_type x t : assoc String.eqb x (type_defs exact) = Some t -> first x (type_defs exact) t.
  Proof. apply assoc_first. Qed.
  Lemma ex_label x v z : assoc String.eqb x (const_defs exact) = None -> assoc String.eqb x (member_defs exact) = Some v ->
    value_is exact v z -> value_is exact (VIdent x) z.
  Proof. intros N A V. apply vi_member with v; [|now apply assoc_first|easy]. now apply assoc_none. Qed.

  Lemma ex_value a z : In a colors -> value_is exact (as_value a) z -> exists i, nth_error colors i = Some a /\ z = Z.of_nat i.
  Proof.
    intros [<-|[<-|[<-|[]]]] V; cbn in V.
    - exists O. split; [easy|]. exact (value_is_fun V ex_red).
    - exists 1%nat. split; [easy|]. exact (value_is_fun V ex_green).
    - exists 2%nat. split; [easy|]. exact (value_is_fun V ex_blue).
  Qed.
  Lemma ex_dense : dense exact colors.
  Proof.
    intros a z Ha V. destruct (ex_value Ha V) as (i & H & ->). assert (L : nth_error colors i <> None) by congruence.
    apply nth_error_Some in L. unfold zlen. lia.
  Qed.
  Lemma ex_colors : enum_ok cfg exact colors.
  Proof.
    split; [discriminate|]. split; [apply camel_distinct_by; cbn; nodup|]. split; [cbn; repeat (constructor; [variant|]); constructor|]. split.
    - intros a [<-|[<-|[<-|[]]]]; cbn; eexists; (split; [first [exact ex_red|exact ex_green|exact ex_blue]|]); lia.
    - intros a b z Ha Hb Va Vb. destruct (ex_value Ha Va) as (i & Hi & ->), (ex_value Hb Vb) as (j & Hj & E).
      apply Nat2Z.inj in E. congruence.
  Qed.

  Lemma ek_point : tkind cfg exact (TsIdent "point") KPlain.
  Proof. eapply tk_struct. apply ex_type. reflexivity. Qed.
  Lemma ek_color : exists k, tkind cfg exact (TsIdent "color") k /\ k <> KDense.
  Proof.
    destruct (enum_impl_std_trait cfg) eqn:st; [exists KStd|exists KPlain]; (split; [|discriminate]);
      [eapply tk_std|eapply tk_enum]; try eassumption; apply ex_type; reflexivity.
  Qed.

  Lemma ex_point : struct_ok cfg exact
    [DVariable (TsInt true) "x"; DVariable (TsIdent "label") "name"; DOption (TsIdent "point") "next"; DVariable (TsIdent "color") "hue"].
  Proof.
    split.
    - exists ["x"; "name"; "next"; "hue"]. split; [repeat constructor|].
      split; [apply snake_distinct_by; cbn; nodup|]. do 4 (constructor; [fname|]). constructor.
    - repeat apply Forall_cons; try apply Forall_nil.
      + exists KPlain; split; [repeat constructor|discriminate].
      + exists KPlain. split; [|discriminate]. constructor. eapply tk_typedef; [apply ex_type; reflexivity|constructor|tauto].
      + exists KPlain. split; [|discriminate]. constructor. exact ek_point.
      + destruct ek_color as (k & K & N). exists k. split; [now constructor|easy].
  Qed.

  Definition color_labels : list value := [VIdent "RED"; VIdent "GREEN"; VIdent "DEEP_BLUE"].
  Lemma ex_label_value v : In v color_labels -> exists x z, v = VIdent x /\ x <> "FALSE" /\ x <> "TRUE" /\ value_is exact v z /\ 0 <= z < 3 /\
      ((x = "RED" /\ z = 0) \/ (x = "GREEN" /\ z = 1) \/ (x = "DEEP_BLUE" /\ z = 2)).
  Proof.
    intros [<-|[<-|[<-|[]]]].
    - exists "RED", 0. repeat split; try discriminate; try lia; [|tauto]. eapply ex_label; [reflexivity|reflexivity|exact ex_red].
    - exists "GREEN", 1. repeat split; try discriminate; try lia; [|tauto]. eapply ex_label; [reflexivity|reflexivity|exact ex_green].
    - exists "DEEP_BLUE", 2. repeat split; try discriminate; try lia; [|tauto]. eapply ex_label; [reflexivity|reflexivity|exact ex_blue].
  Qed.
  Lemma ex_disc : disc_ok cfg exact (TsIdent "color") color_labels.
  Proof.
    split; [unfold color_labels; nodup|]. split; [|split].
    - intros v Hv. destruct (ex_label_value Hv) as (x & z & ? & ? & ? & ? & ? & _). exists x, z. repeat split; try easy; lia.
    - intros v w z Hv Hw Vv Vw. destruct (ex_label_value Hv) as (x & z1 & -> & _ & _ & V1 & _ & C1), (ex_label_value Hw) as (y & z2 & -> & _ & _ & V2 & _ & C2).
      rewrite (value_is_fun Vv V1) in *. pose proof (value_is_fun Vw V2). f_equal. intuition congruence.
    - destruct (union_impl_union cfg); [right|destruct ek_color as (k & K & _); eauto]. eexists _, _, _. split; [reflexivity|]. split; [apply ex_type; reflexivity|].
      split; [intros _; exact ex_dense|]. intros v [<-|[<-|[<-|[]]]].
      + eexists. split; [now left|reflexivity].
      + eexists. split; [right; now left|reflexivity].
      + eexists. split; [right; right; now left|reflexivity].
  Qed.

  Ltac finds := repeat match goal with
    | H : first ?x (type_defs exact) _ |- _ => apply assoc_first in H; vm_compute in H;
        first [discriminate H|injection H as <-|injection H as <- <-|injection H as <- <- <-]
    end.
  Lemma eh_label y : ~ holds exact (TsIdent "label") y.
  Proof. inversion 1; subst; finds; try discriminate. inversion H2. Qed.
  Lemma eh_item x y : In x ["point"; "color"] -> holds exact (TsIdent x) y -> y = x.
  Proof. intros I. inversion 1; subst; [easy|]. cbn in I. intuition (subst; finds). Qed.

  Lemma exact_ok : definitions_ok cfg exact.
  Proof.
    constructor.
    - cbn. nodup.
    - cbn. nodup.
    - split; [apply camel_distinct_by; cbn; nodup|]. cbn. repeat (constructor; [tname|]). constructor.
    - exists (fun _ => O). split.
      + intros x y. cbn. intuition discriminate.
      + intros x d y H. cbn in H. intuition (match goal with H : _ = (x, _) |- _ => inversion H; subst end); cbn in *; discriminate.
    - constructor; [|constructor]. split; [split; [discriminate|]; intros c Hc Sc|].
      + vm_compute in Hc, Sc. intuition (subst; discriminate).
      + cbn. exists 16. split; [exact ex_16|lia].
    - intros x t H. cbn in H.
      repeat (destruct H as [H|H]; [injection H as <- <-|]); [| | | | | |destruct H]; try exact I.
      + exact ex_colors.
      + exact ex_point.
      + split; [discriminate|]. split; [|split; [apply camel_distinct_by; cbn; nodup|split; [cbn; repeat (constructor; [variant|]); constructor|split; [|exact I]]]].
        * eexists _, _. split; [reflexivity|]. exact ex_disc.
        * repeat apply Forall_cons; try apply Forall_nil; [right; exists KPlain|now left|right; exists KVar].
          -- split; [constructor; exact ek_point|]. split; discriminate.
          -- split; [constructor|]. split; discriminate.
      + split; [discriminate|]. split; [|split; [apply camel_distinct_by; cbn; nodup|split; [cbn; repeat (constructor; [variant|]); constructor|split; [|exact I]]]].
        * eexists _, _. split; [reflexivity|]. split; [cbn; nodup|]. cbn. intuition congruence.
        * repeat apply Forall_cons; try apply Forall_nil; [now left|right; exists KPlain].
          split; [repeat constructor|]. split; discriminate.
      + split; [discriminate|]. split; [|split; [apply camel_distinct_by; cbn; nodup|split; [cbn; repeat (constructor; [variant|]); constructor|split; [|exact I]]]].
        * eexists _, _. split; [reflexivity|]. split; [cbn; nodup|]. cbn. intuition congruence.
        * repeat apply Forall_cons; try apply Forall_nil; right; exists KPlain; (split; [repeat constructor|]); split; discriminate.
    - exists (fun x => if existsb (String.eqb x) ["point"] then 2%nat else if existsb (String.eqb x) ["shape"; "maybe"] then 3%nat else 1%nat).
      intros x t H. cbn in H.
      repeat (destruct H as [H|H]; [injection H as <- <-|]); [| | | | | |destruct H]; try exact I.
      + intros d y Hd HH. cbn in Hd.
        repeat (destruct Hd as [<-|Hd]; [inversion HH; subst;
          match goal with H : holds _ _ _ |- _ => first [now inversion H|now apply eh_label in H|apply eh_item in H; [subst|cbn; tauto]] end|]);
          [| |destruct Hd]; [left; reflexivity|right; cbn; lia].
      + intros d y [->|[Hd|(vs & Hd)]] HH; [|discriminate|].
        * inversion HH; subst. match goal with H : holds _ _ _ |- _ => apply eh_item in H; [subst|cbn; tauto] end. cbn; lia.
        * cbn in Hd. repeat (destruct Hd as [[= <- <-]|Hd]); [| | |destruct Hd].
          -- inversion HH; subst. match goal with H : holds _ _ _ |- _ => apply eh_item in H; [subst|cbn; tauto] end. cbn; lia.
          -- inversion HH.
          -- inversion HH.
      + intros d y [->|[Hd|(vs & Hd)]] HH; [|discriminate|].
        * inversion HH; subst. match goal with H : holds _ _ _ |- _ => inversion H end.
        * cbn in Hd. repeat (destruct Hd as [[= <- <-]|Hd]); [| |destruct Hd]; inversion HH; subst. match goal with H : holds _ _ _ |- _ => inversion H end.
      + intros d y [->|[Hd|(vs & Hd)]] HH; [|discriminate|].
        * inversion HH; subst. match goal with H : holds _ _ _ |- _ => inversion H end.
        * cbn in Hd. repeat (destruct Hd as [[= <- <-]|Hd]); [| |destruct Hd]; inversion HH; subst; match goal with H : holds _ _ _ |- _ => inversion H end.
  Qed.

  Lemma ex_color_xv z : 0 <= z < 3 -> xtype exact (union_impl_union cfg) (TsIdent "color") (XEnum z).
  Proof.
    intros R. eapply xt_name_enum; [apply ex_type; reflexivity|].
    assert (H : z = 0 \/ z = 1 \/ z = 2) by lia. destruct H as [->|[->| ->]].
    - eapply xt_enum; [now left|exact ex_red|lia].
    - eapply xt_enum; [right; now left|exact ex_green|lia].
    - eapply xt_enum; [right; right; now left|exact ex_blue|lia].
  Qed.

  Lemma exact_exact : exact_defs cfg exact.
  Proof.
    intros x t H. cbn in H.
    repeat (destruct H as [H|H]; [injection H as <- <-|]); [| | | | | |destruct H]; try exact I.
    - intros _. exact ex_dense.
    - assert (V : forall v z, In v color_labels -> label_is exact v z -> 0 <= z < 3).
      { intros v z Hv L. destruct (ex_label_value Hv) as (x & z' & -> & N1 & N2 & V & R & _).
        destruct L as [[[= E] _]|[[[= E] _]|(_ & _ & V')]]; [easy|easy|]. now rewrite (value_is_fun V' V). }
      split; [|split; [easy|]].
      + intros t y v z [= <- <-] Hv L. exists (XEnum z). split; [|right; now right]. apply ex_color_xv. now apply V with v.
      + intros _. split; [|discriminate]. intros v z Hv L. now apply V with v.
    - assert (V : forall v z, In v [VIdent "FALSE"; VIdent "TRUE"] -> label_is exact v z -> z = 0 \/ z = 1).
      { intros v z [<-|[<-|[]]] L; destruct L as [[E ->]|[[E ->]|(N1 & N2 & _)]]; try discriminate; auto; congruence. }
      split; [|split; [easy|]].
      + intros t y v z [= <- <-] Hv L. exists (XEnum z). split; [|right; now right]. destruct (V v z Hv L) as [->| ->]; [exact (xt_bool exact _ false)|exact (xt_bool exact _ true)].
      + intros _. split; [|easy]. intros v z Hv L. destruct (V v z Hv L) as [->| ->]; cbn; lia.
    - assert (V : forall v z, In v [VIdent "FALSE"; VIdent "TRUE"] -> label_is exact v z -> z = 0 \/ z = 1).
      { intros v z [<-|[<-|[]]] L; destruct L as [[E ->]|[[E ->]|(N1 & N2 & _)]]; try discriminate; auto; congruence. }
      split; [|split; [easy|]].
      + intros t y v z [= <- <-] Hv L. exists (XEnum z). split; [|right; now right]. destruct (V v z Hv L) as [->| ->]; [exact (xt_bool exact _ false)|exact (xt_bool exact _ true)].
      + intros _. split; [|easy]. intros v z Hv L. destruct (V v z Hv L) as [->| ->]; cbn; lia.
  Qed.
End Exact.

(** ** A gap *)
Definition hole_text : text := chars "enum e { A = 0, C = 2 };".
Definition hole : list definition := Eval vm_compute in parsed "enum e { A = 0, C = 2 };".
Lemma hole_parses : greturns (fun n => parse n hole_text) (GOk hole).
Proof. apply (@by_parse 300). vm_compute. reflexivity. Qed.
Lemma hole_good : good_spec hole.
Proof. exact (c34 hole_parses). Qed.
Lemma hole_member x s z : In (x, VConst (Decimal s)) (member_defs hole) -> constant_value KI32 (Decimal s) = GOk z ->
  value_is hole (VConst (Decimal s)) z.
Proof. intros I V. apply vi_number. apply (@member_stands hole x KI32); [exact hole_good|easy|easy]. Qed.
Lemma hole_a : value_is hole (VConst (Decimal "0")) 0.
Proof. apply (@hole_member "A"); [cbn; tauto|reflexivity]. Qed.
Lemma hole_c : value_is hole (VConst (Decimal "2")) 2.
Proof. apply (@hole_member "C"); [cbn; tauto|reflexivity]. Qed.
Lemma hole_ok fl checks : definitions_ok (main_config fl checks) hole.
Proof.
  constructor.
  - cbn. nodup.
  - cbn. nodup.
  - split; [apply camel_distinct_by; cbn; nodup|]. cbn. repeat (constructor; [tname|]). constructor.
  - exists (fun _ => O). split.
    + intros x y. cbn. intuition discriminate.
    + intros x d y H. cbn in H. intuition discriminate.
  - constructor.
  - intros x t H. cbn in H. destruct H as [H|[]]. injection H as <- <-.
    split; [discriminate|]. split; [apply camel_distinct_by; cbn; nodup|]. split; [cbn; repeat (constructor; [variant|]); constructor|]. split.
    + intros a [<-|[<-|[]]]; cbn; eexists; (split; [first [exact hole_a|exact hole_c]|]); lia.
    + intros a b z [<-|[<-|[]]] [<-|[<-|[]]] Va Vb; try easy; cbn in Va, Vb;
        [rewrite (value_is_fun Va hole_a) in Vb; discriminate (value_is_fun Vb hole_c)|rewrite (value_is_fun Vb hole_a) in Va; discriminate (value_is_fun Va hole_c)].
  - exists (fun _ => O). intros x t H. cbn in H. destruct H as [H|[]]. now injection H as <- <-.
Qed.
Definition hole_file : file := Eval vm_compute in file_of plain_config hole.
Definition hole_env : env := Eval vm_compute in env_of hole_file.
Lemma hole_generated : generated plain_config hole hole_file hole_env.
Proof. gens. Qed.
Lemma hole_compiles : compiles hole_file.
Proof. compiled (fun _ : string => O). Qed.
Lemma hole_decodes : from_bytes 9 hole_env (TRef "E") [x00; x00; x00; x01] = Ok (RVariant 1 []).
Proof. reflexivity. Qed.
Lemma hole_value dm x : xtype hole dm (TsIdent "e") x -> x = XEnum 0 \/ x = XEnum 2.
Proof.
  intros X. inversion X; subst; match goal with H : first _ _ _ |- _ => apply assoc_first in H; vm_compute in H; try discriminate H; injection H as <- <- end.
  inversion H1 as [| | | | | | | | | | |l a z I V R| | | | | | |]; subst. destruct I as [<-|[<-|[]]]; cbn in V.
  - left. now rewrite (value_is_fun V hole_a).
  - right. now rewrite (value_is_fun V hole_c).
Qed.
Lemma hole_not dm x bs : xtype hole dm (TsIdent "e") x -> rfc x bs -> bs <> [x00; x00; x00; x01].
Proof.
  intros X R ->. apply hole_value in X as [->| ->]; inversion R as [| |z b S| | | | | | | | | | | | | |]; subst; apply signed_val in S; [|lia| |lia]; vm_compute in S; discriminate.
Qed.
Lemma hole_witness : exists src ds f E y v bs, greturns (fun n => parse n src) (GOk ds) /\ definitions_ok plain_config ds /\
  generated plain_config ds f E /\ camel_of "e" y /\
  returns (fun n => from_bytes n E (TRef y) bs) (Ok v) /\ returns (fun n => to_bytes n E (TRef y) v) (Ok bs) /\
  forall dm xval, xtype ds dm (TsIdent "e") xval -> ~ rfc xval bs.
Proof.
  exists hole_text, hole, hole_file, hole_env, "E", (RVariant 1 []), [x00; x00; x00; x01].
  split; [exact hole_parses|]. split; [exact (hole_ok (Flags false false false false) true)|]. split; [exact hole_generated|].
  split; [now apply camel_of_iff|]. split; [apply returns_from_bytes with 9%nat; [exact hole_decodes|easy]|].
  split; [apply (@returns_to_bytes 9); [reflexivity|easy]|]. intros dm xval X R. now apply (hole_not X R).
Qed.

Definition holex_file : file := Eval vm_compute in file_of indexer_config hole.
Definition holex_env : env := Eval vm_compute in env_of holex_file.
Lemma holex_generated : generated indexer_config hole holex_file holex_env.
Proof. gens. Qed.
Lemma holex_witness : exists fl fl' src ds f f' E E' y v bs v' bs',
  greturns (fun n => parse n src) (GOk ds) /\
  definitions_ok (main_config fl true) ds /\ definitions_ok (main_config fl' true) ds /\
  generated (main_config fl true) ds f E /\ generated (main_config fl' true) ds f' E' /\ camel_of "e" y /\
  returns (fun n => from_bytes n E (TRef y) bs) (Ok v) /\ returns (fun n => to_bytes n E (TRef y) v) (Ok bs) /\
  returns (fun n => from_bytes n E' (TRef y) bs) (Ok v') /\ returns (fun n => to_bytes n E' (TRef y) v') (Ok bs') /\
  bs' <> bs.
Proof.
  exists (Flags false false false false), (Flags false false true false), hole_text, hole, hole_file, holex_file, hole_env, holex_env.
  exists "E", (RVariant 1 []), [x00; x00; x00; x01], (RVariant 0 []), [x00; x00; x00; x00].
  split; [exact hole_parses|]. split; [apply hole_ok|]. split; [apply hole_ok|].
  split; [exact hole_generated|]. split; [exact holex_generated|]. split; [now apply camel_of_iff|].
  split; [apply returns_from_bytes with 9%nat; [exact hole_decodes|easy]|].
  split; [apply (@returns_to_bytes 9); [reflexivity|easy]|].
  split; [apply returns_from_bytes with 9%nat; [reflexivity|easy]|].
  split; [apply (@returns_to_bytes 9); [reflexivity|easy]|discriminate].
Qed.

(** ** The protocol file without gaps, decoded *)
Definition exact_file : file := Eval vm_compute in file_of plain_config exact.
Definition exact_env : env := Eval vm_compute in env_of exact_file.
Lemma exact_generated : generated plain_config exact exact_file exact_env.
Proof. gens. Qed.
Definition exact_ufile : file := Eval vm_compute in file_of union_config exact.
Definition exact_uenv : env := Eval vm_compute in env_of exact_ufile.
Lemma exact_ugenerated : generated union_config exact exact_ufile exact_uenv.
Proof. gens. Qed.
Lemma exact_shape : first "shape" (type_defs exact)
  (TdUnion "shape" (UBody (DVariable (TsIdent "color") "c")
     [CaseSpec [VIdent "RED"] (DVariable (TsIdent "point") "at"); CaseSpec [VIdent "GREEN"] DVoid;
      CaseSpec [VIdent "DEEP_BLUE"] (DOpaqueVariable "data" None)] None)).
Proof. apply ex_type. reflexivity. Qed.
(** shape::RED with x = -1, a name of 17 bytes, no next, hue = GREEN *)
Definition shape_bytes : list byte :=
  [x00; x00; x00; x00; xff; xff; xff; xff; x00; x00; x00; x11] ++ repeat x61 17 ++ [x00; x00; x00] ++
  [x00; x00; x00; x00; x00; x00; x00; x01].
Lemma shape_decodes : exists v, from_bytes 40 exact_env (TRef "Shape") shape_bytes = Ok v.
Proof. eexists. vm_compute. reflexivity. Qed.
Lemma shape_udecodes : exists v, from_bytes 40 exact_uenv (TRef "Shape") shape_bytes = Ok v.
Proof. eexists. vm_compute. reflexivity. Qed.

(** ** A union of a fixed size *)
Definition rate_bytes : list byte := [x00; x00; x00; x01; x00; x00; x00; x07].
Lemma rate_fixed : first "rate" (type_defs exact) (TdUnion "rate" (UBody (DVariable TsBool "fine")
    [CaseSpec [VIdent "FALSE"] (DVariable TsFloat "rough"); CaseSpec [VIdent "TRUE"] (DVariable (TsInt false) "parts")] None)) /\
  fixed true exact (TsIdent "rate") 8 /\ ~ fixed true exact (TsIdent "maybe") 12.
Proof.
  assert (F : first "rate" (type_defs exact) (TdUnion "rate" (UBody (DVariable TsBool "fine")
    [CaseSpec [VIdent "FALSE"] (DVariable TsFloat "rough"); CaseSpec [VIdent "TRUE"] (DVariable (TsInt false) "parts")] None))) by (apply assoc_first; reflexivity).
  split; [exact F|]. split.
  - apply (@fx_union true exact "rate" "rate" _ _ _ 4 eq_refl F); [|discriminate].
    intros vs d [[= <- <-]|[[= <- <-]|[]]]; repeat constructor.
  - intros H. inversion H; subst; try match goal with H : first _ _ _ |- _ => apply assoc_first in H; vm_compute in H; discriminate H end.
    match goal with H : first _ _ _ |- _ => apply assoc_first in H; vm_compute in H; injection H; intros; subst end.
    match goal with H : forall vs d, In _ _ -> _ |- _ => specialize (H _ _ (or_introl eq_refl)); inversion H; subst end. discriminate.
Qed.
Lemma rate_decodes : from_bytes 40 exact_env (TRef "Rate") rate_bytes = Ok (RVariant 1 [RInt 7]).
Proof. reflexivity. Qed.
