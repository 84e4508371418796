(** Concrete cases for the theorems about requested memory (C107). *)
From Verif Require Import Base SpecUtf8 RustTypes SerModel DeModel SpecXdr SpecTypes SpecMisc XdrFacts EncProofs DecProofs CodecProofs CodecLemmas Nom NomFacts Keyword Ast
  ParserModel SpecGrammar SpecParse ParseSound ParserLemmas ConstProofs Utf8 Utf8Proofs CaseModel SpecCase CaseProofs RustAst GenModel SpecGen SpecItems
  GenFacts GenTotal GenPanic GenLemmas SpecXdl GenSem SpecWire WireBase WireEnum WireLemmas WireEnums SpecEmit EmitProofs EmitFlags EmitItems EmitNames EmitRun EmitStop
  ExamplesGen ExamplesWire ExamplesEmit SpecDecode TotalProofs SpecWork WorkProofs DepthProofs ExamplesWork AllocModel SpecAlloc AllocProofs.
Set Implicit Arguments. Unset Strict Implicit.
Local Open Scope string_scope.
Local Open Scope list_scope.

(** a generated tree *)
Definition herd_defs : list definition := Eval vm_compute in parsed "struct node { node kids<>; };".
Lemma herd_good : good_spec herd_defs.
Proof. apply (@parsed_good "struct node { node kids<>; };"). vm_compute. reflexivity. Qed.
Definition herd_env : env := [("Node", TStruct [("kids", TBox (TSeq (TRef "Node")))])].
Lemma herd_file fl checks : exists f, generated (main_config fl checks) herd_defs f herd_env /\ compiles f.
Proof. revert fl checks. flags_cases; eexists; (split; [gens|compiled (fun _ : string => O)]). Qed.
Definition herd_types : list ty := [TRef "Node"; TStruct [("kids", TBox (TSeq (TRef "Node")))]; TBox (TSeq (TRef "Node")); TSeq (TRef "Node")].
Lemma herd_within u : within herd_env u (TRef "Node") -> In u herd_types.
Proof.
  intros W. apply (@within_closed herd_env herd_types) with (TRef "Node"); [|assumption|now left].
  intros t H s I. cbn in H. intuition (subst; cbn in I; cbn; intuition).
Qed.
Lemma herd_occupies : occupies herd_env (TRef "Node").
Proof. eapply oc_ref; [reflexivity|]. eapply oc_struct; [now left|]. constructor. constructor. Qed.
Lemma herd_modest sz S : (forall u, In u herd_types -> 0 <= sz u <= S) -> modest sz S 0 herd_env (TRef "Node").
Proof.
  intros H. split; [intros u W; apply H; now apply herd_within|]. split; [|split; [|split]].
  - intros a W. apply herd_within in W. cbn in W. intuition (try discriminate).
    match goal with H : TSeq _ = TSeq _ |- _ => injection H as <- end. right. apply occupies_never, herd_occupies.
  - intros u b W I. apply herd_within in W. cbn in W. intuition (subst; cbn in I; intuition (try discriminate)).
    match goal with H : TBox _ = TBox _ |- _ => injection H as <- end. left. right. now left.
  - intros k W. apply herd_within in W. cbn in W. intuition discriminate.
  - intros W. apply herd_within in W. cbn in W. intuition discriminate.
Qed.
Lemma herd_step sz limit n i : let s := sz (TRef "Node") in 0 < s <= limit -> limit < 2 ^ 32 -> (forall u, 0 <= sz u) ->
  s * (limit / s) + meter sz limit n herd_env (TRef "Node") i <= meter sz limit (4 + n) herd_env (TRef "Node") ([xff; xff; xff; xff] ++ i).
Proof.
  cbv zeta. intros Hs Hl H0. set (s := sz (TRef "Node")) in *.
  set (S := 1 + s + sz (TStruct [("kids", TBox (TSeq (TRef "Node")))]) + sz (TBox (TSeq (TRef "Node"))) + sz (TSeq (TRef "Node"))).
  assert (HT : forall u, In u herd_types -> 0 <= sz u <= S).
  { intros u I. pose proof (H0 (TStruct [("kids", TBox (TSeq (TRef "Node")))])). pose proof (H0 (TBox (TSeq (TRef "Node")))). pose proof (H0 (TSeq (TRef "Node"))).
    cbn in I. unfold S. fold s. intuition (subst; fold s; lia). }
  assert (NN : forall j, 0 <= meter sz limit n herd_env (TRef "Node") j).
  { intros j. apply (@meter_bound sz limit S 0 ltac:(lia) ltac:(unfold S; pose proof (H0 (TStruct [("kids", TBox (TSeq (TRef "Node")))])); pose proof (H0 (TBox (TSeq (TRef "Node")))); pose proof (H0 (TSeq (TRef "Node"))); lia) ltac:(lia) herd_env n (TRef "Node") j (herd_modest HT)).
    intros b. discriminate. }
  assert (LS : 1 <= limit / s) by (apply Z.div_le_lower_bound; lia).
  assert (CA : cautious limit s (2 ^ 32 - 1) = limit / s).
  { unfold cautious. destruct (Z.eqb_spec s 0); [lia|]. assert (limit / s <= limit / 1) by (apply Z.div_le_compat_l; lia). rewrite Z.div_1_r in *. lia. }
  assert (RW : read_u32 ([xff; xff; xff; xff] ++ i) = Ok (2 ^ 32 - 1, i)) by (apply read_u32_app; split; reflexivity).
  pose proof (@lower_first _ limit s (meter sz limit n herd_env (TRef "Node")) (deser n herd_env (TRef "Node")) ltac:(lia) NN (2 ^ 32 - 1) i ltac:(lia) ltac:(lia)) as LF.
  rewrite CA in LF.
  assert (SQ : meter sz limit (Datatypes.S n) herd_env (TSeq (TRef "Node")) ([xff; xff; xff; xff] ++ i) =
    meter_vec limit s (meter sz limit n herd_env (TRef "Node")) (deser n herd_env (TRef "Node")) (2 ^ 32 - 1) i).
  { cbn [meter]. now rewrite RW. }
  assert (BX : forall j, meter sz limit (2 + n) herd_env (TBox (TSeq (TRef "Node"))) j =
    meter sz limit (1 + n) herd_env (TSeq (TRef "Node")) j + match deser (1 + n) herd_env (TSeq (TRef "Node")) j with Ok _ => sz (TSeq (TRef "Node")) | _ => 0 end) by reflexivity.
  assert (ND : forall j, meter sz limit (4 + n) herd_env (TRef "Node") j =
    meter sz limit (2 + n) herd_env (TBox (TSeq (TRef "Node"))) j + match deser (2 + n) herd_env (TBox (TSeq (TRef "Node"))) j with Ok (_, _) => 0 | _ => 0 end) by reflexivity.
  rewrite ND, BX. change (1 + n)%nat with (Datatypes.S n). rewrite SQ.
  set (q := match deser (Datatypes.S n) herd_env (TSeq (TRef "Node")) ([xff; xff; xff; xff] ++ i) with Ok _ => sz (TSeq (TRef "Node")) | _ => 0 end).
  assert (0 <= q) by (unfold q; pose proof (H0 (TSeq (TRef "Node"))); destruct (deser (Datatypes.S n) herd_env (TSeq (TRef "Node")) ([xff; xff; xff; xff] ++ i)); lia).
  destruct (deser (2 + n) herd_env (TBox (TSeq (TRef "Node"))) ([xff; xff; xff; xff] ++ i)) as [[? ?]| | | |]; lia.
Qed.
Lemma herd_amplified sz limit k : let s := sz (TRef "Node") in 0 < s <= limit -> limit < 2 ^ 32 -> (forall u, 0 <= sz u) ->
  forall n, (4 * k <= n)%nat -> Z.of_nat k * (s * (limit / s)) <= meter sz limit n herd_env (TRef "Node") (repeat xff (4 * k)).
Proof.
  cbv zeta. intros Hs Hl H0. assert (G : forall n, Z.of_nat k * (sz (TRef "Node") * (limit / sz (TRef "Node"))) <= meter sz limit (4 * k + n) herd_env (TRef "Node") (repeat xff (4 * k))).
  { intros n. induction k as [|k IH].
    - cbn [Nat.mul repeat]. change (Z.of_nat 0 * (sz (TRef "Node") * (limit / sz (TRef "Node")))) with 0.
      set (S := 1 + sz (TRef "Node") + sz (TStruct [("kids", TBox (TSeq (TRef "Node")))]) + sz (TBox (TSeq (TRef "Node"))) + sz (TSeq (TRef "Node"))).
      pose proof (H0 (TStruct [("kids", TBox (TSeq (TRef "Node")))])). pose proof (H0 (TBox (TSeq (TRef "Node")))). pose proof (H0 (TSeq (TRef "Node"))).
      assert (S1 : 1 <= S) by (unfold S; lia).
      apply (@meter_bound sz limit S 0 ltac:(lia) S1 ltac:(lia)); [|intros b; discriminate]. apply herd_modest. intros u I. cbn in I. unfold S. intuition (subst; lia).
    - replace (4 * Datatypes.S k + n)%nat with (4 + (4 * k + n))%nat by lia. replace (4 * Datatypes.S k)%nat with (4 + 4 * k)%nat by lia.
      change (repeat xff (4 + 4 * k)) with ([xff; xff; xff; xff] ++ repeat xff (4 * k)).
      pose proof (@herd_step sz limit (4 * k + n) (repeat xff (4 * k)) Hs Hl H0). rewrite Nat2Z.inj_succ. lia. }
  intros n Hn. replace n with (4 * k + (n - 4 * k))%nat by lia. apply G.
Qed.

Definition herd_size (t : ty) : Z := match t with TSeq _ => 24 | _ => 8 end.
Lemma herd_case : modest herd_size 24 0 herd_env (TRef "Node") /\
  meter herd_size (2 ^ 20) 9 herd_env (TRef "Node") [x00; x00; x00; x01; x00; x00; x00; x00] = 8 + 24 + 24.
Proof. split; [|vm_compute; reflexivity]. apply herd_modest. intros u I. cbn in I. intuition (subst; cbn; lia). Qed.
Lemma herd_sizes : sizes herd_size 24 herd_env (TRef "Node").
Proof.
  intros u W. apply herd_within in W. cbn in W. intuition (subst; cbn; try lia); right; apply occupies_never.
  - apply herd_occupies.
  - eapply oc_struct; [now left|]. constructor. constructor.
  - constructor. constructor.
  - constructor.
Qed.
Lemma herd_selves : self_free herd_defs.
Proof. intros x y l d I K M. cbn in I. destruct I as [[= <- <- <-]|[]]. destruct K as [<-|[]]. right. eauto. Qed.

(** a hand-written list with opaque data *)
Definition blob_env : env := [("node", TStruct [("key", TOpaqueFixed 16); ("name", TStr); ("next", TOption (TBox (TRef "node")))])].
Definition blob_types : list ty :=
  [TRef "node"; TStruct [("key", TOpaqueFixed 16); ("name", TStr); ("next", TOption (TBox (TRef "node")))]; TOpaqueFixed 16; TStr;
   TOption (TBox (TRef "node")); TBox (TRef "node")].
Lemma blob_within u : within blob_env u (TRef "node") -> In u blob_types.
Proof.
  intros W. apply (@within_closed blob_env blob_types) with (TRef "node"); [|assumption|now left].
  intros t H s I. cbn in H. intuition (subst; cbn in I; cbn; intuition).
Qed.
Definition blob_size (t : ty) : Z := match t with TRef _ | TStruct _ => 48 | TStr => 24 | TOpaqueFixed _ => 16 | _ => 8 end.
Definition blob_bytes : list byte :=
  repeat x07 16 ++ [x00; x00; x00; x01; x61; x00; x00; x00; x00; x00; x00; x01] ++ repeat x08 16 ++ [x00; x00; x00; x02; x61; x62; x00; x00; x00; x00; x00; x00].
Lemma blob_case : modest blob_size 48 16 blob_env (TRef "node") /\ unboxed_top blob_size blob_env (TRef "node") /\ ~ light blob_size blob_env (TRef "node") /\
  meter blob_size (2 ^ 20) 9 blob_env (TRef "node") blob_bytes = 16 + 1 + 16 + 2 + 48.
Proof.
  split; [|split; [intros b; discriminate|split; [intros [?|[?|[? ?]]]; discriminate|vm_compute; reflexivity]]].
  split; [intros u W; apply blob_within in W; cbn in W; intuition (subst; cbn; lia)|]. split; [|split; [|split]].
  - intros a W. apply blob_within in W. cbn in W. intuition discriminate.
  - intros u b W I. apply blob_within in W. cbn in W. intuition (subst; cbn in I; intuition (try discriminate)).
    match goal with H : TBox _ = TBox _ |- _ => injection H as <- end. now right.
  - intros k W. apply blob_within in W. cbn in W. intuition (try discriminate). match goal with H : TOpaqueFixed _ = TOpaqueFixed _ |- _ => injection H as <- end. lia.
  - intros W. apply blob_within in W. cbn in W. intuition discriminate.
Qed.
