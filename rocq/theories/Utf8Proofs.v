From Coq Require Import ZifyBool.
From Verif Require Import Base SpecUtf8 Utf8.
Ltac Zify.zify_post_hook ::= Z.div_mod_to_equations.

Lemma cons_inj {A} (a b : A) l m : a :: l = b :: m -> a = b /\ l = m.
Proof. intros H; inversion H; auto. Qed.

Ltac inj_list E :=
  cbn [map] in E;
  repeat (let H := fresh "E" in apply cons_inj in E; destruct E as [H E]).

Lemma char_ok_spec c : char_ok c = true <-> is_scalar c.
Proof. unfold char_ok, is_scalar. lia. Qed.

Lemma utf8_ok_complete bs : valid_utf8 bs -> utf8_ok bs = true.
Proof.
  induction 1 as [|c bs rest Hs Hc Hr IH]; [reflexivity|].
  destruct Hc as [c bs Hc E|c bs Hc E|c bs Hc E|c bs Hc E];
    unfold bytes_are in E.
  - destruct bs as [|b0 [|]]; try discriminate E. inj_list E.
    cbn [app utf8_ok]. destruct (Z.ltb_spec (Zb b0) 0x80); [exact IH|lia].
  - destruct bs as [|b0 [|b1 [|]]]; try discriminate E.
    inj_list E. cbn [app utf8_ok].
    destruct (Z.ltb_spec (Zb b0) 0x80); [lia|].
    replace (between 0xC2 0xDF b0) with true by (unfold between; lia).
    rewrite IH. unfold cont. lia.
  - destruct bs as [|b0 [|b1 [|b2 [|]]]]; try discriminate E.
    inj_list E. cbn [app utf8_ok].
    destruct (Z.ltb_spec (Zb b0) 0x80); [lia|].
    replace (between 0xC2 0xDF b0) with false by (unfold between; lia).
    replace (between 0xE0 0xEF b0) with true by (unfold between; lia).
    rewrite IH. unfold is_scalar in Hs.
    replace (ok3 b0 b1) with true by (unfold ok3, between; lia).
    unfold cont; lia.
  - destruct bs as [|b0 [|b1 [|b2 [|b3 [|]]]]]; try discriminate E.
    inj_list E. cbn [app utf8_ok].
    destruct (Z.ltb_spec (Zb b0) 0x80); [lia|].
    replace (between 0xC2 0xDF b0) with false by (unfold between; lia).
    replace (between 0xE0 0xEF b0) with false by (unfold between; lia).
    replace (between 0xF0 0xF4 b0) with true by (unfold between; lia).
    rewrite IH.
    replace (ok4 b0 b1) with true by (unfold ok4, between; lia).
    unfold cont; lia.
Qed.

Lemma utf8_ok_sound_aux n : forall bs, (length bs <= n)%nat ->
  utf8_ok bs = true -> valid_utf8 bs.
Proof.
  induction n as [|n IH]; intros bs Hn H.
  { destruct bs; [constructor|cbn in Hn; lia]. }
  destruct bs as [|b0 r0]; [constructor|].
  cbn [utf8_ok] in H. cbn [length] in Hn.
  pose proof (Zb_range b0) as R0.
  destruct (Z.ltb_spec (Zb b0) 0x80) as [L|L].
  { apply (@valid_app (Zb b0) [b0] r0).
    - left; lia.
    - apply utf8_1; [lia|reflexivity].
    - apply IH; [lia|exact H]. }
  destruct (between 0xC2 0xDF b0) eqn:B2.
  { destruct r0 as [|b1 r1]; [discriminate|]. cbn [length] in Hn.
    apply andb_true_iff in H as [C1 H].
    unfold between, cont in *.
    apply (@valid_app ((Zb b0 - 0xC0) * 64 + (Zb b1 - 0x80)) [b0; b1] r1).
    - left; lia.
    - apply utf8_2; [lia|]. unfold bytes_are. cbn [map]. repeat (f_equal; try lia).
    - apply IH; [lia|exact H]. }
  destruct (between 0xE0 0xEF b0) eqn:B3.
  { destruct r0 as [|b1 [|b2 r2]]; try discriminate. cbn [length] in Hn.
    apply andb_true_iff in H as [H1 H]. apply andb_true_iff in H1 as [K C2].
    unfold ok3, between, cont in *.
    apply (@valid_app ((Zb b0 - 0xE0) * 4096 + (Zb b1 - 0x80) * 64 + (Zb b2 - 0x80))
             [b0; b1; b2] r2).
    - unfold is_scalar. lia.
    - apply utf8_3; [lia|]. unfold bytes_are. cbn [map]. repeat (f_equal; try lia).
    - apply IH; [lia|exact H]. }
  destruct (between 0xF0 0xF4 b0) eqn:B4; [|discriminate].
  destruct r0 as [|b1 [|b2 [|b3 r3]]]; try discriminate. cbn [length] in Hn.
  apply andb_true_iff in H as [H1 H]. apply andb_true_iff in H1 as [K C3].
  apply andb_true_iff in K as [K C2].
  unfold ok4, between, cont in *.
  apply (@valid_app ((Zb b0 - 0xF0) * 262144 + (Zb b1 - 0x80) * 4096
                     + (Zb b2 - 0x80) * 64 + (Zb b3 - 0x80)) [b0; b1; b2; b3] r3).
  - unfold is_scalar. lia.
  - apply utf8_4; [lia|]. unfold bytes_are. cbn [map]. repeat (f_equal; try lia).
  - apply IH; [lia|exact H].
Qed.

Lemma utf8_ok_spec bs : utf8_ok bs = true <-> valid_utf8 bs.
Proof.
  split; [eapply utf8_ok_sound_aux; reflexivity|apply utf8_ok_complete].
Qed.
