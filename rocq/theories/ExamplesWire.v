(** Concrete protocol files for the wire-format theorems. *)
From Verif Require Import Base SpecUtf8 RustTypes SerModel DeModel SpecXdr SpecTypes XdrFacts EncProofs DecProofs CodecProofs CodecLemmas Nom NomFacts Keyword Ast
  ParserModel SpecGrammar SpecParse ParseSound ParserLemmas ConstProofs Utf8 Utf8Proofs CaseModel SpecCase CaseProofs RustAst GenModel SpecGen SpecItems
  GenFacts GenTotal GenPanic GenLemmas SpecXdl GenSem SpecWire WireBase WireEnum WireLemmas WireEnums ExamplesGen.
Set Implicit Arguments.
Unset Strict Implicit.
Local Open Scope string_scope.
Local Open Scope list_scope.

(** ** A supported protocol file *)
Definition shapes_text : text := chars
"const MAX = 16;
const LIMIT = MAX;
enum color { RED = 0, GREEN = 1, DEEP_BLUE = 2 };
enum level { LOW = 1, HIGH = LIMIT };
typedef opaque digest[16];
typedef digest key;
typedef string label<MAX>;
typedef point points<>;
struct point { int x; unsigned hyper y; key id; label name; point *next; level lev; int type; };
union shape switch (color c) { case RED: point at; case GREEN: void; case DEEP_BLUE: points all; };
union maybe switch (bool b) { case FALSE: void; case TRUE: double v; };
union other switch (color c) { case RED: opaque data<>; default: hyper rest; };
".
Definition shapes : list definition :=
  Eval vm_compute in match parse 900 shapes_text with GOk ds => ds | _ => [] end.
Lemma shapes_parses : greturns (fun n => parse n shapes_text) (GOk shapes).
Proof. apply (@by_parse 900). vm_compute. reflexivity. Qed.
Lemma shapes_good : good_spec shapes.
Proof. exact (c34 shapes_parses). Qed.

(** deciding the conditions on names *)
Lemma camel_distinct_by l : NoDup l -> NoDup (map camel l) -> camel_distinct l.
Proof.
  intros N M. split; [easy|]. intros x y z Hx Hy C D. apply camel_of_iff in C, D. apply NoDup_map_inj with (1 := M); congruence.
Qed.
Lemma snake_distinct_by l : NoDup l -> NoDup (map snake l) -> snake_distinct l.
Proof.
  intros N M. split; [easy|]. intros x y z Hx Hy C D. apply snake_exact in C, D. apply NoDup_map_inj with (1 := M); try easy.
  unfold snake. congruence.
Qed.
Ltac nodup := repeat (constructor; [cbn; intuition discriminate|]); constructor.
Ltac variant := split; [reflexivity|split; rewrite camel_of_iff; discriminate].
Ltac tname := split; [reflexivity|split; [discriminate|]]; intros y H; rewrite camel_of_iff; cbn in H;
  intuition (subst; discriminate).
Ltac fname := split; [cbn; intuition discriminate|right; intros y H; apply snake_exact in H;
  rewrite <- (string_of_list_ascii_of_string y), H; vm_compute; intuition discriminate].

Section Shapes.
  Variables (fl : flags) (checks : bool).
  Let cfg := main_config fl checks.

  Lemma shapes_max : value_is shapes (VIdent "MAX") 16.
  Proof. apply (@const_value shapes "MAX" (Decimal "16") KU32); [exact shapes_good|reflexivity|reflexivity]. Qed.
  Lemma shapes_limit : value_is shapes (VIdent "LIMIT") 16.
  Proof. apply vi_const with (VIdent "MAX"); [now apply assoc_first|exact shapes_max]. Qed.
  Lemma shapes_num s z : stands_for (Decimal s) z -> value_is shapes (VConst (Decimal s)) z.
  Proof. apply vi_number. Qed.
  Lemma shapes_16 : stands_for (Decimal "16") 16.
  Proof. apply (@const_stands shapes "MAX" KU32); [exact shapes_good|now left|reflexivity]. Qed.
  Lemma shapes_member x s z : In (x, VConst (Decimal s)) (member_defs shapes) -> constant_value KI32 (Decimal s) = GOk z ->
    value_is shapes (VConst (Decimal s)) z.
  Proof. intros I V. apply vi_number. apply (@member_stands shapes x KI32); [exact shapes_good|easy|easy]. Qed.
  Lemma shapes_red : value_is shapes (VConst (Decimal "0")) 0.
  Proof. apply (@shapes_member "RED"); [cbn; tauto|reflexivity]. Qed.
  Lemma shapes_green : value_is shapes (VConst (Decimal "1")) 1.
  Proof. apply (@shapes_member "GREEN"); [cbn; tauto|reflexivity]. Qed.
  Lemma shapes_blue : value_is shapes (VConst (Decimal "2")) 2.
  Proof. apply (@shapes_member "DEEP_BLUE"); [cbn; tauto|reflexivity]. Qed.

  Lemma shapes_type x t : assoc String.eqb x (type_defs shapes) = Some t -> first x (type_defs shapes) t.
  Proof. apply assoc_first. Qed.
  Lemma label_value x v z : assoc String.eqb x (const_defs shapes) = None -> assoc String.eqb x (member_defs shapes) = Some v ->
    value_is shapes v z -> value_is shapes (VIdent x) z.
  Proof. intros N A V. apply vi_member with v; [|now apply assoc_first|easy]. now apply assoc_none. Qed.
  Lemma shapes_low : value_is shapes (VConst (Decimal "1")) 1.
  Proof. exact shapes_green. Qed.

  Ltac same_member := cbn in *; subst;
    repeat match goal with H : _ \/ _ |- _ => destruct H as [<-|H] | H : False |- _ => destruct H end; try reflexivity;
    cbn in *; exfalso.
  Ltac vals := match goal with
    | H : value_is shapes ?v _, K : value_is shapes ?w _ |- _ =>
        first [apply (value_is_fun shapes_red) in H|apply (value_is_fun shapes_green) in H|apply (value_is_fun shapes_blue) in H|apply (value_is_fun shapes_limit) in H];
        first [apply (value_is_fun shapes_red) in K|apply (value_is_fun shapes_green) in K|apply (value_is_fun shapes_blue) in K|apply (value_is_fun shapes_limit) in K]; lia
    end.

  Lemma shapes_color : enum_ok cfg shapes [Assign "RED" (VConst (Decimal "0")); Assign "GREEN" (VConst (Decimal "1")); Assign "DEEP_BLUE" (VConst (Decimal "2"))].
  Proof.
    split; [discriminate|]. split; [apply camel_distinct_by; cbn; nodup|]. split; [cbn; repeat (constructor; [variant|]); constructor|]. split.
    - intros a [<-|[<-|[<-|[]]]]; cbn; eexists; (split; [first [exact shapes_red|exact shapes_green|exact shapes_blue]|]); lia.
    - intros a b z Ha Hb Va Vb. same_member; vals.
  Qed.
  Lemma shapes_dense : dense shapes [Assign "RED" (VConst (Decimal "0")); Assign "GREEN" (VConst (Decimal "1")); Assign "DEEP_BLUE" (VConst (Decimal "2"))].
  Proof.
    intros a z [<-|[<-|[<-|[]]]] V; cbn in V;
    first [apply (value_is_fun shapes_red) in V|apply (value_is_fun shapes_green) in V|apply (value_is_fun shapes_blue) in V]; subst; cbn; lia.
  Qed.
  Lemma shapes_level : enum_ok cfg shapes [Assign "LOW" (VConst (Decimal "1")); Assign "HIGH" (VIdent "LIMIT")].
  Proof.
    split; [discriminate|]. split; [apply camel_distinct_by; cbn; nodup|]. split; [cbn; repeat (constructor; [variant|]); constructor|]. split.
    - intros a [<-|[<-|[]]]; cbn; eexists; (split; [first [exact shapes_green|exact shapes_limit]|]); lia.
    - intros a b z Ha Hb Va Vb. same_member; vals.
  Qed.

  Lemma k_digest : dkind cfg shapes (DOpaqueFixed "digest" (VConst (Decimal "16"))) KFixed.
  Proof. constructor. split; [|easy]. exists 16. split; [apply vi_number, shapes_16|lia]. Qed.
  Lemma k_key : tkind cfg shapes (TsIdent "key") KFixed.
  Proof.
    eapply tk_typedef; [apply shapes_type; reflexivity| |tauto]. constructor.
    eapply tk_typedef; [apply shapes_type; reflexivity| |tauto]. exact k_digest.
  Qed.
  Lemma k_point : tkind cfg shapes (TsIdent "point") KPlain.
  Proof. eapply tk_struct. apply shapes_type. reflexivity. Qed.
  Lemma k_points : tkind cfg shapes (TsIdent "points") KPlain.
  Proof. eapply tk_typedef; [apply shapes_type; reflexivity| |tauto]. eapply dk_vararray; [exact k_point|tauto]. Qed.
  Lemma k_level : exists k, tkind cfg shapes (TsIdent "level") k /\ k <> KDense.
  Proof.
    destruct (enum_impl_std_trait cfg) eqn:st; [exists KStd|exists KPlain]; (split; [|discriminate]);
      [eapply tk_std|eapply tk_enum]; try eassumption; apply shapes_type; reflexivity.
  Qed.
  Lemma k_color : exists k, tkind cfg shapes (TsIdent "color") k.
  Proof.
    destruct (enum_impl_std_trait cfg) eqn:st; eexists; [eapply tk_std|eapply tk_enum]; try eassumption; apply shapes_type; reflexivity.
  Qed.

  Lemma shapes_point : struct_ok cfg shapes
    [DVariable (TsInt true) "x"; DVariable (TsHyper false) "y"; DVariable (TsIdent "key") "id"; DVariable (TsIdent "label") "name";
     DOption (TsIdent "point") "next"; DVariable (TsIdent "level") "lev"; DVariable (TsInt true) "type"].
  Proof.
    split.
    - exists ["x"; "y"; "id"; "name"; "next"; "lev"; "type"]. split; [repeat constructor|].
      split; [apply snake_distinct_by; cbn; nodup|].
      do 6 (constructor; [fname|]). constructor; [|constructor].
      split; [cbn; intuition discriminate|left; cbn; tauto].
    - repeat apply Forall_cons; try apply Forall_nil.
      1,2,7: exists KPlain; split; [repeat constructor|discriminate].
      + exists KFixed. split; [constructor; exact k_key|discriminate].
      + exists KPlain. split; [|discriminate]. constructor. eapply tk_typedef; [apply shapes_type; reflexivity|constructor|tauto].
      + exists KPlain. split; [|discriminate]. constructor. exact k_point.
      + destruct k_level as (k & K & N). exists k. split; [now constructor|easy].
  Qed.

  Lemma labels_color ls : (forall v, In v ls -> v = VIdent "RED" \/ v = VIdent "GREEN" \/ v = VIdent "DEEP_BLUE") -> NoDup ls ->
    disc_ok cfg shapes (TsIdent "color") ls.
  Proof.
    intros L N. split; [easy|].
    assert (V : forall v, In v ls -> exists x z, v = VIdent x /\ x <> "FALSE" /\ x <> "TRUE" /\ value_is shapes v z /\ 0 <= z < 3 /\
      ((x = "RED" /\ z = 0) \/ (x = "GREEN" /\ z = 1) \/ (x = "DEEP_BLUE" /\ z = 2))).
    { intros v Hv. destruct (L v Hv) as [->|[->| ->]].
      - exists "RED", 0. repeat split; try discriminate; try lia; [|tauto]. eapply label_value; [reflexivity|reflexivity|exact shapes_red].
      - exists "GREEN", 1. repeat split; try discriminate; try lia; [|tauto]. eapply label_value; [reflexivity|reflexivity|exact shapes_green].
      - exists "DEEP_BLUE", 2. repeat split; try discriminate; try lia; [|tauto]. eapply label_value; [reflexivity|reflexivity|exact shapes_blue]. }
    split; [|split].
    - intros v Hv. destruct (V v Hv) as (x & z & ? & ? & ? & ? & ? & _). exists x, z. repeat split; try easy; lia.
    - intros v w z Hv Hw Vv Vw. destruct (V v Hv) as (x & z1 & -> & _ & _ & V1 & _ & C1), (V w Hw) as (y & z2 & -> & _ & _ & V2 & _ & C2).
      rewrite (value_is_fun Vv V1) in *. pose proof (value_is_fun Vw V2). f_equal. intuition congruence.
    - destruct (union_impl_union cfg); [right|exact k_color]. eexists _, _, _. split; [reflexivity|]. split; [apply shapes_type; reflexivity|].
      split; [intros _; exact shapes_dense|]. intros v Hv. destruct (L v Hv) as [->|[->| ->]].
      + eexists. split; [now left|reflexivity].
      + eexists. split; [right; now left|reflexivity].
      + eexists. split; [right; right; now left|reflexivity].
  Qed.

  Ltac finds := repeat match goal with
    | H : first ?x (type_defs shapes) _ |- _ => apply assoc_first in H; vm_compute in H;
        first [discriminate H|injection H as <-|injection H as <- <-|injection H as <- <- <-]
    end.
  Lemma h_digest y : ~ holds shapes (TsIdent "digest") y.
  Proof. inversion 1; subst; finds; try discriminate. inversion H2. Qed.
  Lemma h_key y : ~ holds shapes (TsIdent "key") y.
  Proof. inversion 1; subst; finds; try discriminate. inversion H2; subst. now apply h_digest with y. Qed.
  Lemma h_label y : ~ holds shapes (TsIdent "label") y.
  Proof. inversion 1; subst; finds; try discriminate. inversion H2. Qed.
  Lemma h_points y : ~ holds shapes (TsIdent "points") y.
  Proof. inversion 1; subst; finds; try discriminate. inversion H2. Qed.
  Lemma h_item x y : In x ["point"; "level"; "color"] -> holds shapes (TsIdent x) y -> y = x.
  Proof. intros I. inversion 1; subst; [easy|]. cbn in I. intuition (subst; finds). Qed.

  Lemma shapes_ok : definitions_ok cfg shapes.
  Proof.
    constructor.
    - cbn. nodup.
    - cbn. nodup.
    - split; [apply camel_distinct_by; cbn; nodup|]. cbn. repeat (constructor; [tname|]). constructor.
    - exists (fun x => if existsb (String.eqb x) ["LIMIT"; "key"; "points"; "label"] then 2%nat else if String.eqb x "HIGH" then 3%nat else 1%nat). split.
      + intros x y. cbn. intuition (match goal with H : _ = _ |- _ => inversion H; subst end; cbn; lia).
      + intros x d y H. cbn in H. intuition (match goal with H : _ = (x, _) |- _ => inversion H; subst end); cbn in *; try discriminate;
          match goal with H : Some _ = Some _ |- _ => injection H as <- end; cbn; lia.
    - repeat (constructor; [split; [split; [discriminate|]; intros c Hc Sc|]|]); [| | | |constructor].
      + vm_compute in Hc, Sc. intuition (subst; discriminate).
      + cbn. exists 16. split; [exact shapes_16|lia].
      + vm_compute in Hc, Sc. intuition (subst; discriminate).
      + cbn. split; [tauto|]. exists 16. split; [exact shapes_max|lia].
    - intros x t H. cbn in H.
      repeat (destruct H as [H|H]; [injection H as <- <-|]); [| | | | | | | | | |destruct H]; try exact I.
      + exact shapes_color.
      + exact shapes_level.
      + exact shapes_point.
      + split; [discriminate|]. split; [|split; [apply camel_distinct_by; cbn; nodup|split; [cbn; repeat (constructor; [variant|]); constructor|split; [|exact I]]]].
        * eexists _, _. split; [reflexivity|]. apply labels_color; [cbn; intuition congruence|cbn; nodup].
        * repeat apply Forall_cons; try apply Forall_nil; [right; exists KPlain|now left|right; exists KPlain].
          -- split; [constructor; exact k_point|]. split; discriminate.
          -- split; [constructor; exact k_points|]. split; discriminate.
      + split; [discriminate|]. split; [|split; [apply camel_distinct_by; cbn; nodup|split; [cbn; repeat (constructor; [variant|]); constructor|split; [|exact I]]]].
        * eexists _, _. split; [reflexivity|]. split; [cbn; nodup|]. cbn. intuition congruence.
        * repeat apply Forall_cons; try apply Forall_nil; [now left|right; exists KPlain].
          split; [repeat constructor|]. split; discriminate.
      + split; [discriminate|]. split; [|split; [apply camel_distinct_by; cbn; nodup|split; [cbn; repeat (constructor; [variant|]); constructor|split]]].
        * eexists _, _. split; [reflexivity|]. apply labels_color; [cbn; intuition congruence|cbn; nodup].
        * repeat apply Forall_cons; try apply Forall_nil. right. exists KVar. split; [constructor|]. split; discriminate.
        * split.
          -- right. exists KPlain. split; [repeat constructor|tauto].
          -- cbn. intros x [<-|[]]. rewrite camel_of_iff. discriminate.
    - exists (fun x => if existsb (String.eqb x) ["point"; "points"] then 2%nat else if existsb (String.eqb x) ["shape"; "maybe"; "other"] then 3%nat else 1%nat).
      intros x t H. cbn in H.
      repeat (destruct H as [H|H]; [injection H as <- <-|]); [| | | | | | | | | |destruct H]; try exact I.
      + intros d y Hd HH. cbn in Hd.
        repeat (destruct Hd as [<-|Hd]; [inversion HH; subst;
          match goal with H : holds _ _ _ |- _ => first [now inversion H|now apply h_key in H|now apply h_label in H|apply h_item in H; [subst|cbn; tauto]] end|]);
          [| |destruct Hd]; [left; reflexivity|right; cbn; lia].
      + intros d y [->|[Hd|(vs & Hd)]] HH; [|discriminate|].
        * inversion HH; subst. match goal with H : holds _ _ _ |- _ => apply h_item in H; [subst|cbn; tauto] end. cbn; lia.
        * cbn in Hd. repeat (destruct Hd as [[= <- <-]|Hd]); [| | |destruct Hd].
          -- inversion HH; subst. match goal with H : holds _ _ _ |- _ => apply h_item in H; [subst|cbn; tauto] end. cbn; lia.
          -- inversion HH.
          -- inversion HH; subst. match goal with H : holds _ _ _ |- _ => now apply h_points in H end.
      + intros d y [->|[Hd|(vs & Hd)]] HH; [|discriminate|].
        * inversion HH; subst. match goal with H : holds _ _ _ |- _ => inversion H end.
        * cbn in Hd. repeat (destruct Hd as [[= <- <-]|Hd]); [| |destruct Hd]; inversion HH; subst. match goal with H : holds _ _ _ |- _ => inversion H end.
      + intros d y [->|[[= ->]|(vs & Hd)]] HH.
        * inversion HH; subst. match goal with H : holds _ _ _ |- _ => apply h_item in H; [subst|cbn; tauto] end. cbn; lia.
        * inversion HH; subst. match goal with H : holds _ _ _ |- _ => inversion H end.
        * cbn in Hd. destruct Hd as [[= <- <-]|[]]. inversion HH.
  Qed.
  Lemma shapes_supported : supported_defs cfg shapes.
  Proof. exact (supported_main shapes_parses shapes_ok). Qed.
End Shapes.

(** ** Counterexamples *)
Definition env_of (f : file) : env := match file_env f with Some E => E | None => [] end.
Lemma returns_at {A} (f : nat -> res A) r k : returns f r -> exists n, f (k + n)%nat = r.
Proof. intros [_ [N H]]. exists N. apply H. lia. Qed.


Ltac gens := split; [apply (@by_gen 20); [vm_compute; reflexivity|easy]|reflexivity].
Ltac words := cbn; intuition discriminate.
Ltac bare := split; [words|discriminate].
Ltac varok := split; [bare|discriminate].
Ltac itemc := cbn [item_compiles]; first
  [exact I
  |solve [split; [cbn; nodup|split; [cbn; repeat (constructor; [varok|]); constructor|split; [cbn; nodup|cbn; repeat (constructor; [lia|]); constructor]]]]
  |solve [split; [cbn; nodup|cbn; repeat (constructor; [cbn; first [bare|words]|]); constructor]]
  |solve [split; [cbn; nodup|cbn; repeat (constructor; [varok|]); constructor]]].
Ltac compiled rk :=
  split; [cbn; nodup|]; split; [cbn; repeat (constructor; [cbn; split; words|]); constructor|];
  split; [cbn; repeat (constructor; [itemc|]); constructor|];
  split; [exists rk; intros i y Hi Hy; cbn in Hi;
          repeat (destruct Hi as [<-|Hi]); [..|destruct Hi]; cbn in Hy;
          repeat (destruct Hy as [<-|Hy]); try contradiction; cbn; lia|];
  split; [cbn; nodup|cbn; constructor].
Definition parsed (s : string) : list definition := match parse 300 (chars s) with GOk ds => ds | _ => [] end.
Lemma parsed_good s ds : parse 300 (chars s) = GOk ds -> good_spec ds.
Proof. intros H. exact (c34 (by_parse H)). Qed.

(** C43: a negative member *)
Definition neg : list definition := Eval vm_compute in parsed "enum e { A = -1 };".
Lemma neg_good : good_spec neg.
Proof. apply (@parsed_good "enum e { A = -1 };"). vm_compute. reflexivity. Qed.
Definition neg_file : file := Eval vm_compute in file_of plain_config neg.
Definition neg_env : env := Eval vm_compute in env_of neg_file.
Lemma neg_generated : generated plain_config neg neg_file neg_env.
Proof. gens. Qed.
Lemma neg_compiles : compiles neg_file.
Proof. compiled (fun _ : string => O). Qed.
Lemma neg_value : xtype neg false (TsIdent "e") (XEnum (-1)).
Proof.
  eapply xt_name_enum; [now apply assoc_first|]. eapply xt_enum; [now left| |lia]. apply vi_number.
  apply (@member_stands neg "A" KI32); [exact neg_good|now left|reflexivity].
Qed.
Ltac word := repeat (constructor; cbn; try lia).
Lemma enum_bytes z bs : signed 4 z bs -> rfc (XEnum z) bs.
Proof. constructor. easy. Qed.
Ltac wrote := unfold to_bytes in *; cbn in *.
Lemma neg_mute : mute neg_env (TRef "E") (XEnum (-1)).
Proof.
  intros v bs R H. apply (returns_at 5) in H as [n H].
  assert (bs = [xff; xff; xff; xff]) as -> by (apply (rfc_det R); constructor; split; [reflexivity|right; cbn; lia]).
  destruct v; try discriminate. destruct i as [|[|i]]; try discriminate. destruct vs; discriminate.
Qed.

(** C46, C47: the default arm *)
Definition pick : list definition := Eval vm_compute in
  parsed "enum e { A = 0, B = 1, C = 2 }; union u switch (e s) { case A: void; default: void; };".
Lemma pick_good : good_spec pick.
Proof. apply (@parsed_good "enum e { A = 0, B = 1, C = 2 }; union u switch (e s) { case A: void; default: void; };"). vm_compute. reflexivity. Qed.
Definition pick_file : file := Eval vm_compute in file_of plain_config pick.
Definition pick_env : env := Eval vm_compute in env_of pick_file.
Definition pick_ix_file : file := Eval vm_compute in file_of indexer_config pick.
Definition pick_ix_env : env := Eval vm_compute in env_of pick_ix_file.
Lemma pick_generated : generated plain_config pick pick_file pick_env.
Proof. gens. Qed.
Lemma pick_compiles : compiles pick_file.
Proof. compiled (fun _ : string => O). Qed.
Lemma pick_ix_generated : generated indexer_config pick pick_ix_file pick_ix_env.
Proof. gens. Qed.
Lemma pick_ix_compiles : compiles pick_ix_file.
Proof. compiled (fun _ : string => O). Qed.
Lemma member_value ds x c z : good_spec ds -> assoc String.eqb x (const_defs ds) = None -> assoc String.eqb x (member_defs ds) = Some (VConst c) ->
  constant_value KI32 c = GOk z -> value_is ds (VIdent x) z.
Proof.
  intros G N A V. apply assoc_first in A. apply vi_member with (VConst c); [now apply assoc_none|easy|]. apply vi_number.
  apply (@member_stands ds x KI32); [easy|now apply first_in|easy].
Qed.
Lemma pick_value : xtype pick true (TsIdent "u") (XUnion (XEnum 2) XVoid).
Proof.
  eapply xt_name_union; [now apply assoc_first|]. eapply xt_default with (z := 2); [reflexivity| |right; right; reflexivity| |constructor].
  - eapply xt_name_enum; [now apply assoc_first|]. eapply xt_enum; [right; right; now left| |lia]. apply vi_number.
    apply (@member_stands pick "C" KI32); [exact pick_good|cbn; tauto|reflexivity].
  - intros v [<-|[]] [[K _]|[[K _]|(_ & _ & V)]]; try discriminate K.
    assert (W : value_is pick (VIdent "A") 0) by (eapply member_value; [exact pick_good|reflexivity|reflexivity|reflexivity]).
    pose proof (value_is_fun V W). lia.
Qed.
Lemma rfc_two : rfc (XUnion (XEnum 2) XVoid) [x00; x00; x00; x02].
Proof. change [x00; x00; x00; x02] with ([x00; x00; x00; x02] ++ []). constructor; [|constructor]. constructor. split; [reflexivity|left; cbn; lia]. Qed.
Lemma pick_mute : mute pick_env (TRef "U") (XUnion (XEnum 2) XVoid).
Proof.
  intros v bs R H. apply (returns_at 5) in H as [n H]. rewrite (rfc_det R rfc_two) in H. clear R.
  destruct v; try discriminate. destruct i as [|[|i]]; cbn in H; destruct vs; try discriminate; destruct i; discriminate.
Qed.
Lemma pick_ix_mute : mute pick_ix_env (TRef "U") (XUnion (XEnum 2) XVoid).
Proof.
  intros v bs R H. apply (returns_at 5) in H as [n H]. rewrite (rfc_det R rfc_two) in H. clear R.
  destruct v; try discriminate. destruct i as [|[|i]]; cbn in H; destruct vs; try discriminate; destruct i; discriminate.
Qed.
Lemma pick_ix_read : returns (fun n => from_bytes n pick_ix_env (TRef "U") [x00; x00; x00; x02]) (Ok (RVariant 1 [])) /\
  returns (fun n => to_bytes n pick_ix_env (TRef "U") (RVariant 1 [])) Panic.
Proof. split; [apply returns_from_bytes with 9%nat|apply returns_to_bytes with 9%nat]; easy. Qed.

(** C45: a word that is no member's value *)
Lemma pick_ix_unknown : returns (fun n => from_bytes n pick_ix_env (TRef "E") [x00; x00; x00; x07]) (Ok (RVariant 0 [])).
Proof. apply returns_from_bytes with 9%nat; easy. Qed.
Lemma pick_members a z : In a [Assign "A" (dec "0"); Assign "B" (dec "1"); Assign "C" (dec "2")] -> value_is pick (as_value a) z -> z < 3.
Proof.
  assert (S : forall s z w, value_is pick (VConst (Decimal s)) z -> In (VConst (Decimal s)) (map snd (member_defs pick)) ->
    constant_value KI32 (Decimal s) = GOk w -> z = w).
  { intros s z' w V I CV. apply in_map_iff in I as ([x v] & E & I). cbn in E. subst v. eapply value_is_fun; [exact V|]. apply vi_number.
    eapply member_stands; [exact pick_good|exact I|exact CV]. }
  intros [<-|[<-|[<-|[]]]] V; cbn in V;
    [rewrite (S _ _ 0 V)|rewrite (S _ _ 1 V)|rewrite (S _ _ 2 V)]; first [lia|cbn; tauto|reflexivity].
Qed.

(** C48: opaque data of fixed length in an arm *)
Definition fixedarm : list definition := Eval vm_compute in
  parsed "enum e { A = 0 }; union u switch (e s) { case A: opaque d[4]; };".
Lemma fixedarm_good : good_spec fixedarm.
Proof. apply (@parsed_good "enum e { A = 0 }; union u switch (e s) { case A: opaque d[4]; };"). vm_compute. reflexivity. Qed.
Definition fixedarm_file : file := Eval vm_compute in file_of union_config fixedarm.
Definition fixedarm_env : env := Eval vm_compute in env_of fixedarm_file.
Lemma fixedarm_generated : generated union_config fixedarm fixedarm_file fixedarm_env.
Proof. gens. Qed.
Lemma fixedarm_compiles : compiles fixedarm_file.
Proof. compiled (fun x : string => if String.eqb x "U" then 1%nat else O). Qed.
Lemma fixedarm_value : xtype fixedarm true (TsIdent "u") (XUnion (XEnum 0) (XFOpaque [x01; x02; x03; x04])).
Proof.
  assert (W : value_is fixedarm (VIdent "A") 0) by (eapply member_value; [exact fixedarm_good|reflexivity|reflexivity|reflexivity]).
  eapply xt_name_union; [now apply assoc_first|]. eapply xt_case with (z := 0); [|right; right; reflexivity|now left|now left| |].
  - eapply xt_name_enum; [now apply assoc_first|]. eapply xt_enum; [now left| |lia]. apply vi_number.
    apply (@member_stands fixedarm "A" KI32); [exact fixedarm_good|cbn; tauto|reflexivity].
  - right. right. split; [discriminate|]. split; [discriminate|exact W].
  - constructor. apply vi_number. pose proof fixedarm_good as G. inversion_clear G as [|? ? _ G']. inversion_clear G' as [|? ? G'' _].
    destruct G'' as (_ & _ & _ & ((_ & _ & _ & K) & _) & _). exact (@stands_by KI32 _ _ K eq_refl).
Qed.
Lemma calls_ref n E x v : calls (S n) E (TRef x) v = match lookup E x with Some t => calls n E t v | None => Stuck end.
Proof. destruct v; reflexivity. Qed.
Lemma calls_struct n E ts v l : calls (S n) E (TStruct ts) v = Ok l ->
  exists vs k, v = RSeq vs /\ zipM (calls n E) (map snd ts) vs = Ok k /\ l = SStruct k.
Proof.
  destruct v; try discriminate. intros H. change (bind (zipM (calls n E) (map snd ts) vs) (fun l => Ok (SStruct l)) = Ok l) in H.
  destruct (zipM _ _ _) as [k| | | |] eqn:e; try discriminate. injection H as <-. now exists vs, k.
Qed.
Lemma calls_opaque n E v l : calls (S n) E TOpaqueVar v = Ok l -> exists bs, v = RBytes bs /\ l = calls_opaque_variable bs.
Proof. destruct v; try discriminate. intros [= <-]. eauto. Qed.
Lemma zip_cons {A B C} (f : A -> B -> res C) a l m r : zipM f (a :: l) m = Ok r -> exists b m' c r', m = b :: m' /\ f a b = Ok c /\ zipM f l m' = Ok r' /\ r = c :: r'.
Proof.
  destruct m as [|b m]; [discriminate|]. cbn. destruct (f a b) eqn:e1; try discriminate. cbn. destruct (zipM f l m) eqn:e2; try discriminate.
  intros [= <-]. eauto 8.
Qed.
Lemma zip_nil {A B C} (f : A -> B -> res C) m r : zipM f [] m = Ok r -> m = [] /\ r = [].
Proof. destruct m; [|discriminate]. now intros [= <-]. Qed.
Lemma calls_union n E vss disc names d v l : calls (S n) E (TUnion vss disc names d) v = Ok l ->
  exists i vs x o, v = RVariant i vs /\ nth_error vss i = Some (x, o) /\
    match o with Some ts => exists k, zipM (calls n E) (disc :: ts) vs = Ok k /\ l = STuple k | None => vs = [] /\ l = STuple [] end.
Proof.
  destruct v; try discriminate. cbn [calls]. destruct (nth_error vss i) as [[x [ts|]]|] eqn:e; try discriminate.
  - intros H. destruct (zipM _ _ _) as [k| | | |] eqn:z; try discriminate. injection H as <-. exists i, vs, x, (Some ts). eauto.
  - destruct vs; [|discriminate]. intros [= <-]. exists i, [], x, None. eauto.
Qed.
Lemma calls_indexer n E vss index names d v l : calls (S n) E (TIndexer vss index names d) v = Ok l ->
  exists i vs x ts, v = RVariant i vs /\ nth_error vss i = Some (x, ts) /\
    match assoc String.eqb x index with Some z => exists k, zipM (calls n E) ts vs = Ok k /\ l = STuple (SI32 z :: k) | None => l = SPanic end.
Proof.
  destruct v; try discriminate. cbn [calls]. destruct (nth_error vss i) as [[x ts]|] eqn:e; try discriminate. intros H.
  exists i, vs, x, ts. split; [easy|]. split; [easy|]. destruct (assoc String.eqb x index); [|now injection H as <-].
  destruct (zipM _ _ _) as [k| | | |] eqn:z'; try discriminate. injection H as <-. eauto.
Qed.
Lemma fixedarm_u : lookup fixedarm_env "U" = Some (TUnion [("A", Some [TStruct [("data", TOpaqueVar)]])] (TRef "E") [(RVariant 0 [], "A")] DErr).
Proof. reflexivity. Qed.
Lemma fixedarm_e : lookup fixedarm_env "E" = Some (TIndexer [("A", [])] [("A", 0)] [(0, "A")] (DVal "A")).
Proof. reflexivity. Qed.
Lemma returns_at5 {A} (f : nat -> res A) r : returns f r -> exists n, f (S (S (S (S (S n))))) = r.
Proof. intros [_ [N H]]. exists N. apply H. lia. Qed.
Lemma fixedarm_mute : mute fixedarm_env (TRef "U") (XUnion (XEnum 0) (XFOpaque [x01; x02; x03; x04])).
Proof.
  intros v bs R H. apply returns_at5 in H as [n H].
  assert (bs = [x00; x00; x00; x00] ++ [x01; x02; x03; x04] ++ []) as ->.
  { apply (rfc_det R). constructor; constructor; [split; [reflexivity|left; cbn; lia]|]. repeat split; cbn; lia. }
  unfold to_bytes in H. destruct (calls _ fixedarm_env (TRef "U") v) as [s| | | |] eqn:EC; try discriminate.
  cbn [bind] in H. rewrite calls_ref, fixedarm_u in EC. apply calls_union in EC as (i & vs & x & o & -> & NE & EC).
  destruct i as [|i]; [|destruct i; discriminate]. injection NE as <- <-. destruct EC as (k & EZ & ->).
  apply zip_cons in EZ as (v1 & vs1 & c1 & k1 & -> & EC1 & EZ & ->). apply zip_cons in EZ as (v2 & vs2 & c2 & k2 & -> & EC2 & EZ & ->).
  apply zip_nil in EZ as [-> ->]. rewrite calls_ref, fixedarm_e in EC1.
  apply calls_indexer in EC1 as (i & vs & x & ts & -> & NE & EC1).
  destruct i as [|i]; [|destruct i; discriminate]. injection NE as <- <-. destruct EC1 as (k & EZ & ->). apply zip_nil in EZ as [-> ->].
  apply calls_struct in EC2 as (vs & k & -> & EZ & ->). apply zip_cons in EZ as (v1 & vs1 & c1 & k1 & -> & EC1 & EZ & ->). apply zip_nil in EZ as [-> ->].
  apply calls_opaque in EC1 as (b & -> & ->). unfold to_bytes_calls in H. cbn [bind foldM serialize serialize_i32] in H.
  rewrite c19_variable in H. unfold serialize_bytes, serialize_u32 in H. cbn [bind app] in H.
  set (o := be_bytes 4 0) in H. set (w := be_bytes 4 (wrap_u 32 (zlen b))) in H.
  assert (b = []) as ->.
  { pose proof (be_bytes_length 4 0) as Lo. pose proof (be_bytes_length 4 (wrap_u 32 (zlen b))) as Lw. fold o in Lo. fold w in Lw. clearbody o w.
    apply (f_equal (fun r => match r with Ok l => length l | _ => O end)) in H.
    assert (K : (length ((o ++ w) ++ b) <= 8)%nat).
    { destruct (4 - zlen b mod 4 <? 4)%Z; [|rewrite H; cbn; lia]. etransitivity; [|apply Nat.eq_le_incl; exact H].
      rewrite (app_length ((o ++ w) ++ b)). lia. }
    rewrite !app_length in K. destruct b; [easy|]. cbn in K. lia. }
  vm_compute in H. discriminate.
Qed.
(** C49, C50: an enum of the std-trait mode behind a typedef *)
Definition gap : list definition := Eval vm_compute in parsed "enum e { A = 5 }; typedef e t; struct direct { e f; }; struct via { t f; };".
Lemma gap_good : good_spec gap.
Proof. apply (@parsed_good "enum e { A = 5 }; typedef e t; struct direct { e f; }; struct via { t f; };"). vm_compute. reflexivity. Qed.
Definition gap_file : file := Eval vm_compute in file_of std_config gap.
Definition gap_env : env := Eval vm_compute in env_of gap_file.
Lemma gap_generated : generated std_config gap gap_file gap_env.
Proof. gens. Qed.
Lemma gap_compiles : compiles gap_file.
Proof. compiled (fun x : string => if String.eqb x "E" then O else 1%nat). Qed.
Lemma gap_enum : xtype gap false (TsIdent "e") (XEnum 5).
Proof.
  eapply xt_name_enum; [now apply assoc_first|]. eapply xt_enum; [now left| |lia]. apply vi_number.
  apply (@member_stands gap "A" KI32); [exact gap_good|now left|reflexivity].
Qed.
Lemma gap_value x : x = "direct" \/ x = "via" -> xtype gap false (TsIdent x) (XStruct [XEnum 5]).
Proof.
  intros [-> | ->]; (eapply xt_name_struct; [now apply assoc_first|]); constructor; repeat constructor; [exact gap_enum|].
  eapply xt_typedef; [now apply assoc_first|]. constructor. exact gap_enum.
Qed.
Lemma gap_via : lookup gap_env "Via" = Some (TStruct [("f", TRef "E")]).
Proof. reflexivity. Qed.
Lemma gap_e : lookup gap_env "E" = Some (TEnum [("A", VUnit)]).
Proof. reflexivity. Qed.
Lemma gap_mute : mute gap_env (TRef "Via") (XStruct [XEnum 5]).
Proof.
  intros v bs R H. apply returns_at5 in H as [n H].
  assert (bs = [x00; x00; x00; x05] ++ []) as ->.
  { apply (rfc_det R). repeat constructor; cbn; lia. }
  unfold to_bytes in H. destruct (calls _ gap_env (TRef "Via") v) as [s| | | |] eqn:EC; try discriminate.
  cbn [bind] in H. rewrite calls_ref, gap_via in EC. apply calls_struct in EC as (vs & k & -> & EZ & ->).
  apply zip_cons in EZ as (v1 & vs1 & c1 & k1 & -> & EC1 & EZ & ->). apply zip_nil in EZ as [-> ->].
  cbn [snd] in EC1. rewrite calls_ref, gap_e in EC1. destruct v1; try discriminate.
  destruct i as [|[|i]]; try discriminate. destruct vs; [|discriminate]. injection EC1 as <-. discriminate.
Qed.
Lemma gap_speaks : speaks gap_env (TRef "Direct") (RSeq [RVariant 0 []]) (XStruct [XEnum 5]).
Proof.
  apply speaks_denotes with (XStruct [XEnum 5]); [|apply same_refl].
  eapply dn_ref; [reflexivity|]. constructor. repeat econstructor; cbn; lia.
Qed.

(** C50: a chain of typedefs *)
Definition chain : list definition := Eval vm_compute in
  parsed "typedef opaque digest[4]; typedef digest key; struct direct { opaque f[4]; }; struct via { int n; key k; };".
Lemma chain_good : good_spec chain.
Proof.
  apply (@parsed_good "typedef opaque digest[4]; typedef digest key; struct direct { opaque f[4]; }; struct via { int n; key k; };").
  vm_compute. reflexivity.
Qed.
Definition chain_file : file := Eval vm_compute in file_of std_config chain.
Definition chain_env : env := Eval vm_compute in env_of chain_file.
Lemma chain_generated : generated std_config chain chain_file chain_env.
Proof. gens. Qed.
Lemma chain_compiles : compiles chain_file.
Proof. compiled (fun _ : string => O). Qed.
Lemma chain_types : NoDup (map fst (type_defs chain)).
Proof. cbn. nodup. Qed.
Lemma chain_expands : expands chain (DVariable (TsIdent "key") "k") (DOpaqueFixed "f" (dec "4")).
Proof.
  eapply ex_typedef; [now apply assoc_first|]. eapply ex_typedef; [now apply assoc_first|]. exact (ex_same chain (DOpaqueFixed "digest" (dec "4")) "f").
Qed.

(** a value of shapes: a point that has a successor *)
Definition pt (z : Z) (next : xv) : xv :=
  XStruct [XInt z; XUHyper 7; XFOpaque (repeat x01 16); XString [x61; x62]; next; XEnum 16; XInt 3].
Definition shape_value : xv := XUnion (XEnum 0) (pt (-5) (XSome (pt 6 XNone))).
Lemma shapes_point_value dm z next : - 2 ^ 31 <= z < 2 ^ 31 -> xdecl shapes dm (DOption (TsIdent "point") "next") next ->
  xtype shapes dm (TsIdent "point") (pt z next).
Proof.
  intros Z N. eapply xt_name_struct; [now apply assoc_first|]. constructor.
  constructor; [constructor; now constructor|]. constructor; [constructor; constructor; lia|].
  constructor; [|constructor; [|constructor; [exact N|constructor; [|constructor; [|constructor]]]]].
  - constructor. eapply xt_typedef; [now apply assoc_first|]. constructor. eapply xt_typedef; [now apply assoc_first|]. constructor. apply vi_number. exact shapes_16.
  - constructor. eapply xt_typedef; [now apply assoc_first|]. constructor; [now apply utf8_ok_spec|]. split; [cbn; lia|]. exists 16. split; [exact shapes_max|cbn; lia].
  - constructor. eapply xt_name_enum; [now apply assoc_first|]. eapply xt_enum; [right; now left| |lia]. cbn.
    eapply vi_const; [now apply assoc_first|exact shapes_max].
  - constructor. constructor. lia.
Qed.
Lemma shapes_value dm : xtype shapes dm (TsIdent "shape") shape_value.
Proof.
  assert (W : value_is shapes (VIdent "RED") 0) by (eapply member_value; [exact shapes_good|reflexivity|reflexivity|reflexivity]).
  eapply xt_name_union; [now apply assoc_first|]. eapply xt_case with (z := 0); [|right; right; reflexivity|now left|now left| |].
  - eapply xt_name_enum; [now apply assoc_first|]. eapply xt_enum; [now left| |lia]. cbn. apply vi_number. 
    apply (@member_stands shapes "RED" KI32); [exact shapes_good|now left|reflexivity].
  - right. right. split; [discriminate|]. split; [discriminate|exact W].
  - constructor. apply shapes_point_value; [lia|]. constructor. apply shapes_point_value; [lia|]. constructor.
Qed.
Lemma shapes_point_small dm : xtype shapes dm (TsIdent "point") (pt 6 XNone).
Proof. apply shapes_point_value; [lia|constructor]. Qed.

(** ** Refutations *)
Lemma c45_refuted : exists ds f E x l z bs v, good_spec ds /\ generated indexer_config ds f E /\ compiles f /\
  In (x, TdEnum x l) (type_defs ds) /\ (forall a, In a l -> ~ value_is ds (as_value a) z) /\ signed 4 z bs /\
  returns (fun n => from_bytes n E (TRef "E") bs) (Ok v).
Proof.
  exists pick, pick_ix_file, pick_ix_env, "e", [Assign "A" (dec "0"); Assign "B" (dec "1"); Assign "C" (dec "2")], 7, [x00; x00; x00; x07], (RVariant 0 []).
  split; [exact pick_good|]. split; [exact pick_ix_generated|]. split; [exact pick_ix_compiles|]. split; [now left|].
  split; [intros a Ha V; now apply (pick_members Ha) in V|]. split; [|exact pick_ix_unknown]. split; [reflexivity|left; cbn; lia].
Qed.
Lemma c47_refuted : exists ds f E bs v, good_spec ds /\ generated indexer_config ds f E /\ compiles f /\
  xtype ds true (TsIdent "u") (XUnion (XEnum 2) XVoid) /\ mute E (TRef "U") (XUnion (XEnum 2) XVoid) /\
  rfc (XUnion (XEnum 2) XVoid) bs /\ returns (fun n => from_bytes n E (TRef "U") bs) (Ok v) /\
  returns (fun n => to_bytes n E (TRef "U") v) Panic.
Proof.
  exists pick, pick_ix_file, pick_ix_env, [x00; x00; x00; x02], (RVariant 1 []).
  split; [exact pick_good|]. split; [exact pick_ix_generated|]. split; [exact pick_ix_compiles|]. split; [exact pick_value|].
  split; [exact pick_ix_mute|]. split; [exact rfc_two|exact pick_ix_read].
Qed.
Lemma c50_refuted : exists ds f E v, good_spec ds /\ generated std_config ds f E /\ compiles f /\
  In (DefType (TdStruct "direct" [DVariable (TsIdent "e") "f"])) ds /\
  In (DefType (TdStruct "via" [DVariable (TsIdent "t") "f"])) ds /\
  expands ds (DVariable (TsIdent "t") "f") (DVariable (TsIdent "e") "f") /\
  speaks E (TRef "Direct") v (XStruct [XEnum 5]) /\ mute E (TRef "Via") (XStruct [XEnum 5]).
Proof.
  exists gap, gap_file, gap_env, (RSeq [RVariant 0 []]).
  split; [exact gap_good|]. split; [exact gap_generated|]. split; [exact gap_compiles|]. split; [cbn; tauto|]. split; [cbn; tauto|].
  split; [eapply ex_typedef; [now apply assoc_first|]; exact (ex_same gap (DVariable (TsIdent "e") "t") "f")|]. split; [exact gap_speaks|exact gap_mute].
Qed.
