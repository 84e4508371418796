(** Concrete cases for the files that can be translated (C115). *)
From Verif Require Import Base RustTypes Nom Keyword Ast ParserModel SpecGrammar SpecParse ParserLemmas ConstProofs CaseModel SpecCase RustAst GenModel SpecGen SpecItems GenFacts GenPanic GenLemmas
  SpecTranslate TranslateGen TranslateUnion ExamplesGen.
Local Open Scope string_scope.
Local Open Scope list_scope.

Definition pets_text : text := chars
  "const MAX = 8; typedef opaque tag<MAX>; typedef int pair[2]; enum pet { CAT = -1, DOG = 2 }; struct owner { tag name; pair at; pet kind; }; union choice switch (pet p) { case DOG: owner o; default: void; };".
Definition pets : list definition :=
  Eval vm_compute in match parse 900 pets_text with GOk ds => ds | _ => [] end.
Definition tool : flags := Flags false false false false.
Lemma pets_parses : greturns (fun n => parse n pets_text) (GOk pets).
Proof. apply (@by_parse 900). vm_compute. reflexivity. Qed.
Lemma pets_scope : one_scope pets.
Proof. unfold one_scope. vm_compute. intros x H. intuition (subst; discriminate). Qed.

Lemma one_digit n c : nth_error digit_chars n = Some [c] -> (n < 10)%nat -> numeral 10 [c] (Z.of_nat n).
Proof.
  intros H L. change [c] with ([] ++ [c]). replace (Z.of_nat n) with (0 * 10 + Z.of_nat n) by lia.
  apply num_snoc; [constructor| |lia]. exists n, [c]. split; [easy|]. split; [now left|easy].
Qed.
Lemma stands_8 : stands_for (Decimal "8") 8.
Proof. exact (sf_decimal _ _ (@one_digit 8 "8" eq_refl ltac:(lia))). Qed.
Lemma stands_2 : stands_for (Decimal "2") 2.
Proof. exact (sf_decimal _ _ (@one_digit 2 "2" eq_refl ltac:(lia))). Qed.
Lemma stands_m1 : stands_for (Decimal "-1") (-1).
Proof. exact (sf_negative _ _ (@one_digit 1 "1" eq_refl ltac:(lia))). Qed.

Lemma pets_translatable : translatable (main_config tool true) pets.
Proof.
  assert (T : typed (main_config tool true) pets (TsIdent "pet")).
  { apply ty_name; [|reflexivity]. intros d [_ H]. apply assoc_first in H. vm_compute in H. discriminate. }
  assert (O : typed (main_config tool true) pets (TsIdent "owner")).
  { apply ty_name; [|reflexivity]. intros d [_ H]. apply assoc_first in H. vm_compute in H. discriminate. }
  split; [repeat constructor; exists 8; split; [exact stands_8|lia]|].
  constructor; [now left|]. constructor; [now left|].
  constructor.
  { split; [reflexivity|]. split; [repeat constructor|]. exists [-1; 2]. split.
    - constructor; [constructor; [exact stands_m1|cbn; lia]|]. constructor; [constructor; [exact stands_2|cbn; lia]|constructor].
    - split; [repeat constructor; lia|]. split; [intros _; cbn; lia|]. intros _. split; [cbn; repeat destruct Z.eq_dec; lia|].
      intros z w [<-|[<-|[]]] [<-|[<-|[]]]; lia. }
  constructor.
  { split; [reflexivity|]. constructor; [|constructor; [|constructor; [|constructor]]].
    - split; [|exists "name"; split; [reflexivity|cbn; intuition discriminate]]. split; [exact I|]. intros t [= <-].
      eapply ty_plain with (d := DOpaqueVariable "tag" (Some (VIdent "MAX"))); [|reflexivity|exact I].
      split; [reflexivity|]. apply assoc_first. vm_compute. reflexivity.
    - split; [|exists "at"; split; [reflexivity|cbn; intuition discriminate]]. split; [exact I|]. intros t [= <-].
      eapply ty_other with (d := DFixedArray (TsInt true) "pair" (VConst (Decimal "2"))); [|reflexivity|do 2 constructor|].
      + split; [reflexivity|]. apply assoc_first. vm_compute. reflexivity.
      + exists 2. split; [exact stands_2|lia].
    - split; [|exists "kind"; split; [reflexivity|cbn; intuition discriminate]]. split; [exact I|]. intros t [= <-]. exact T. }
  constructor; [|constructor].
  split; [reflexivity|]. split; [|intros d [= <-]; split; [exact I|discriminate]].
  exists (TsIdent "pet"), "p". split; [reflexivity|]. split; [|split; [now left|intros; reflexivity]].
  constructor; [|constructor]. split; [split; [exact I|intros t [= <-]; exact O]|].
  constructor; [|constructor]. split; [reflexivity|]. exists 2. split.
  - apply ni_member with (VConst (Decimal "2")).
    + cbn. intuition discriminate.
    + apply assoc_first. vm_compute. reflexivity.
    + constructor; [exact stands_2|cbn; lia].
  - split; [lia|]. intros _. lia.
Qed.
Lemma pets_case : greturns (fun n => parse n pets_text) (GOk pets) /\ translatable (main_config tool true) pets.
Proof. split; [exact pets_parses|exact pets_translatable]. Qed.

(** a file that is not: the gap between -3 and 0 *)
Definition gap_text : text := chars "enum e { A = -3, B = 0 };".
Definition gap_file : list definition :=
  Eval vm_compute in match parse 900 gap_text with GOk ds => ds | _ => [] end.
Lemma gap_parses : greturns (fun n => parse n gap_text) (GOk gap_file).
Proof. apply (@by_parse 900). vm_compute. reflexivity. Qed.
Lemma gap_case : greturns (fun n => parse n gap_text) (GOk gap_file) /\
  ~ translatable (main_config tool true) gap_file.
Proof.
  split; [exact gap_parses|]. intros [_ T]. inversion T as [|? ? T' _]; subst. clear T.
  destruct T' as [_ [_ (zs & V & N)]].
  inversion V as [|? z1 ? ? V1 V']; subst. inversion V' as [|? z2 ? ? V2 V'']; subst. inversion V''; subst. clear V V' V''.
  cbn [as_value] in V1, V2.
  assert (z1 = -3) as ->.
  { inversion V1 as [? ? S f| | |]; subst. apply (stands_fun S). exact (sf_negative _ _ (@one_digit 3 "3" eq_refl ltac:(lia))). }
  assert (z2 = 0) as ->.
  { inversion V2 as [? ? S f| | |]; subst. apply (stands_fun S). exact (sf_decimal _ _ (@one_digit 0 "0" eq_refl ltac:(lia))). }
  destruct N as (_ & _ & N). destruct (N eq_refl) as [_ K]. specialize (K (-3) 0). cbn in K.
  destruct K as [K|[K|[]]]; lia || tauto.
Qed.

(** a name that is both a constant and an enum member: the constant does not fit an enum, so the member is taken *)
Definition twice_text : text := chars "const A = 0x80000000; enum e { A = 1 }; enum f { B = A };".
Definition twice : list definition :=
  Eval vm_compute in match parse 900 twice_text with GOk ds => ds | _ => [] end.
Lemma twice_parses : greturns (fun n => parse n twice_text) (GOk twice).
Proof. apply (@by_parse 900). vm_compute. reflexivity. Qed.
Lemma twice_case : greturns (fun n => parse n twice_text) (GOk twice) /\ ~ one_scope twice /\
  translatable (main_config tool true) twice /\ number_is twice KI32 (VIdent "A") 1 /\ number_is twice KU32 (VIdent "A") (2 ^ 31).
Proof.
  assert (G : good_spec twice) by exact (c34 twice_parses).
  assert (A : good_value (VIdent "A")) by (split; [now repeat constructor|cbn; intuition discriminate]).
  split; [exact twice_parses|]. split; [|split; [|split]].
  - intros S. apply (S "A"); now left.
  - apply (translated (main_config tool true) G).
    assert (K : exists f, gen_code 20 (main_config tool true) twice = GOk f) by (eexists; vm_compute; reflexivity).
    destruct K as [f K]. exists f. exact (by_gen K ltac:(discriminate)).
  - apply (@number_found (main_config tool true) twice G 5); [exact A|vm_compute; reflexivity].
  - apply (@number_found (main_config tool true) twice G 5); [exact A|vm_compute; reflexivity].
Qed.
Lemma pets_numbers : one_scope pets /\ number_is pets KU32 (VIdent "DOG") 2.
Proof.
  split; [exact pets_scope|]. apply (@number_found (main_config tool true) pets (c34 pets_parses) 5); [|vm_compute; reflexivity].
  split; [now repeat constructor|cbn; intuition discriminate].
Qed.
Lemma twice_number : good_spec twice /\ good_value (VIdent "A") /\ number_is twice KI32 (VIdent "A") 1.
Proof.
  split; [exact (c34 twice_parses)|]. split; [split; [now repeat constructor|cbn; intuition discriminate]|]. apply twice_case.
Qed.
