(** Concrete protocol files: the unit tests of rpcgen/src/gen_code.rs (lines
    976-1136) replayed on the model, the cases shown beside the generator
    theorems, and the counterexamples. *)
From Verif Require Import Base RustTypes Nom NomFacts Keyword Ast ParserModel SpecGrammar SpecParse
  ParseSound ParserLemmas ConstProofs CaseModel SpecCase CaseProofs RustAst GenModel SpecGen SpecItems
  GenFacts GenTotal GenPanic GenLemmas.
Set Implicit Arguments.
Unset Strict Implicit.
Local Open Scope string_scope.
Local Open Scope list_scope.

(** ** The unit tests of gen_code.rs *)
Definition dec (s : string) : value := VConst (Decimal s).
Definition no_config : config := Config false false false false false true.
Definition cx_const : context := Context no_config [("a", dec "10")] [].
Definition cx_enum : context := Context no_config [] [("a", TdEnum "a" [Assign "b" (dec "10")])].
Definition cx_both : context :=
  Context no_config [("a", dec "10")] [("b", TdEnum "b" [Assign "c" (dec "11")])].
Example t_resolve :
  (resolve_name cx_const 5 KU32 "a", resolve_name cx_const 5 KU32 "n",
   resolve_name cx_enum 5 KU32 "b", resolve_name cx_enum 5 KU32 "n",
   resolve_name cx_both 5 KU32 "a", resolve_name cx_both 5 KU32 "c") =
  (GOk 10, GErr (GNotFoundIdentifier "n"), GOk 10, GErr (GNotFoundIdentifier "n"), GOk 10, GOk 11).
Proof. reflexivity. Qed.
Example t_camel : map (fun x => str (upper_camel_case (chars x))) ["AbCd"; "abCd"; "ab_cd"; "AB_CD"] =
  ["AbCd"; "AbCd"; "AbCd"; "AbCd"].
Proof. reflexivity. Qed.
Example t_snake : map (fun x => str (snake_case (chars x))) ["AbCd"; "abCd"; "ab_cd"; "Ab2Cd"] =
  ["ab_cd"; "ab_cd"; "ab_cd"; "ab2_cd"].
Proof. reflexivity. Qed.

(** the unit tests of parser.rs on Declaration::name, Declaration::type_specifier
    and Value *)
Definition decls : list decl :=
  [DFixedArray (TsInt false) "a" (VIdent "b"); DOpaqueFixed "a" (VIdent "b"); DOpaqueVariable "a" None; DOption (TsInt false) "a";
   DString "a" None; DVariable (TsInt false) "a"; DVariableArray (TsInt false) "a" None; DVoid].
Example t_decl_name : map decl_name decls = repeat (Some "a") 7 ++ [None].
Proof. reflexivity. Qed.
Example t_decl_type : map decl_type decls =
  [Some (TsInt false); Some (TsIdent "u8"); Some (TsIdent "u8"); Some (TsInt false); Some (TsIdent "String"); Some (TsInt false); Some (TsInt false); None].
Proof. reflexivity. Qed.
Example t_value_is : (map is_true [VIdent "TRUE"; VIdent "a"], map is_false [VIdent "FALSE"; VIdent "a"]) = ([true; false], [true; false]).
Proof. reflexivity. Qed.

(** ** A protocol file *)
Definition proto_text : text := chars
"const MAXLEN = 0xff;
const BIG = 5000000000;
const LIMIT = MAXLEN;
enum color { RED = 1, GREEN = 3, DEEP_BLUE = MAXLEN };
typedef opaque digest[16];
typedef string name<MAXLEN>;
typedef name alias;
struct node { alias label; digest id; color hue; node *next; unsigned hyper ids<>; int type; };
union reply switch (int status) { case 0: node ok; case 2: void; default: name msg; };
union maybe switch (bool b) { case TRUE: int v; case FALSE: void; };
program P { version V { void NULLPROC(void) = 0; } = 1; } = 100;
% a line
".
Definition proto : list definition :=
  Eval vm_compute in match parse 900 proto_text with GOk ds => ds | _ => [] end.

Lemma by_parse n t ds : parse n t = GOk ds -> greturns (fun n => parse n t) (GOk ds).
Proof. intros H. apply c31. exact (parse_sound H). Qed.
Lemma by_gen n cfg ds r : gen_code n cfg ds = r -> r <> GFuel -> greturns (fun n => gen_code n cfg ds) r.
Proof. intros H N. exact (greturns_mono (@gen_mono cfg ds) H N). Qed.

Lemma proto_parses : greturns (fun n => parse n proto_text) (GOk proto).
Proof. apply (@by_parse 900). vm_compute. reflexivity. Qed.
Lemma proto_good : good_spec proto.
Proof. exact (c34 proto_parses). Qed.

Definition plain_config : config := main_config (Flags false false false false) true.
Definition std_config : config := main_config (Flags true false true false) true.
Definition union_config : config := main_config (Flags false true true true) true.
Definition indexer_config : config := main_config (Flags false false true false) true.

Definition file_of (cfg : config) (ds : list definition) : file :=
  match gen_code 20 cfg ds with GOk f => f | _ => File [] [] [] end.
Definition proto_file : file := Eval vm_compute in file_of std_config proto.
Definition proto_union_file : file := Eval vm_compute in file_of union_config proto.
Lemma proto_generates : greturns (fun n => gen_code n std_config proto) (GOk proto_file).
Proof. apply (@by_gen 20); [vm_compute; reflexivity|easy]. Qed.
Lemma proto_generates_union : greturns (fun n => gen_code n union_config proto) (GOk proto_union_file).
Proof. apply (@by_gen 20); [vm_compute; reflexivity|easy]. Qed.

(** the std-trait file in full *)
Example proto_file_is : proto_file = File [UseSerializeTuple; UseIndexer]
  [ConstItem "MAXLEN" false (TokNum 255); ConstItem "BIG" true (TokNum 5000000000);
   ConstItem "LIMIT" false (TokId "MAXLEN")]
  [IEnum (EnumItem "Color" DvSerde [("RED", 1); ("GREEN", 3); ("DeepBlue", 255)] "RED"
     (Some [("RED", 1); ("GREEN", 3); ("DeepBlue", 255)])
     (Some [(1, "RED"); (3, "GREEN"); (255, "DeepBlue")]) None);
   IStruct (StructItem "Node"
     [Field ANone (Id "label") YString;
      Field AFixed (Id "id") (YArray (YInt false W8) (TokNum 16) true);
      Field ASigned32 (Id "hue") (YName "Color");
      Field ANone (Id "next") (YBox (YOption (YName "Node")));
      Field ANone (Id "ids") (YVec (YInt false W64));
      Field ANone (RawId "type") (YInt true W32)]);
   IUnion (UnionItem "Reply" DvIndexer
     [Variant ANone (TokNum 0) [YName "Node"]; Variant ANone (TokNum 2) [];
      Variant ANone (TokId "Default") [YString]] (TokId "Default", 1%nat)
     (Some (IndexerImpl [(0, TokNum 0); (2, TokNum 2)] (Some (TokId "Default"))
       [(TokNum 0, true, 0); (TokNum 2, false, 2)] true)) None);
   IUnion (UnionItem "Maybe" DvIndexer
     [Variant ANone (TokId "FALSE") []; Variant ANone (TokId "TRUE") [YInt true W32]] (TokId "FALSE", 0%nat)
     (Some (IndexerImpl [(0, TokId "FALSE"); (1, TokId "TRUE")] None
       [(TokId "FALSE", false, 0); (TokId "TRUE", true, 1)] false)) None)].
Proof. reflexivity. Qed.

(** ** Reading off values *)
Lemma stands_by k c z : good_constant c -> constant_value k c = GOk z -> stands_for c z.
Proof.
  intros g H. destruct (stands_total g) as [w S]. pose proof (stands_outcome k g S) as O.
  rewrite H in O. unfold outcome in O. destruct (_ && _) in O; [|discriminate]. now injection O as ->.
Qed.
Lemma const_stands ds x k c z : good_spec ds -> In (x, VConst c) (const_defs ds) ->
  constant_value k c = GOk z -> stands_for c z.
Proof.
  intros G I. apply stands_by. apply good_consts in G. rewrite Forall_forall in G. apply (G _ I).
Qed.
Lemma member_stands ds x k c z : good_spec ds -> In (x, VConst c) (member_defs ds) ->
  constant_value k c = GOk z -> stands_for c z.
Proof.
  intros G I. apply stands_by. apply good_spec_values in G as [_ G]. rewrite Forall_forall in G. apply (G _ I).
Qed.
(** the value of a constant or member that is given by a number *)
Lemma const_value ds x c k z : good_spec ds -> assoc String.eqb x (const_defs ds) = Some (VConst c) ->
  constant_value k c = GOk z -> value_is ds (VIdent x) z.
Proof.
  intros G A V. apply assoc_first in A. apply vi_const with (VConst c); [easy|].
  apply vi_number. apply (const_stands G (first_in A) V).
Qed.

(** ** C40 *)
Lemma proto_value : value_is proto (VIdent "DEEP_BLUE") 255.
Proof.
  apply vi_member with (VIdent "MAXLEN").
  - vm_compute. intuition discriminate.
  - apply assoc_first. reflexivity.
  - apply (@const_value proto "MAXLEN" (Hex "ff") KU32); [exact proto_good|reflexivity|reflexivity].
Qed.
Lemma proto_fits : fits KI32 255.
Proof. cbn. lia. Qed.
Lemma proto_scope : one_scope proto.
Proof. unfold one_scope. vm_compute. intros x H. intuition (subst; discriminate). Qed.
Lemma proto_missing : ~ In "VIOLET" (map fst (const_defs proto)) /\ ~ In "VIOLET" (map fst (member_defs proto)).
Proof. vm_compute. intuition discriminate. Qed.

Definition two_scopes_text : text := chars
  "const X = 5000000000; enum a { X = 1 }; enum b { M = X };".
Definition two_scopes : list definition :=
  Eval vm_compute in match parse 100 two_scopes_text with GOk ds => ds | _ => [] end.
Lemma two_scopes_parses : greturns (fun n => parse n two_scopes_text) (GOk two_scopes).
Proof. apply (@by_parse 100). vm_compute. reflexivity. Qed.
Lemma c40_refuted : exists ds f e, good_spec ds /\
  In (DefType (TdEnum "b" [Assign "M" (VIdent "X")])) ds /\ value_is ds (VIdent "X") 5000000000 /\
  greturns (fun n => gen_code n std_config ds) (GOk f) /\
  In (IEnum e) (fi_types f) /\ en_name e = "B" /\ en_values e = [("M", 1)].
Proof.
  exists two_scopes. do 2 eexists.
  assert (G : good_spec two_scopes) by exact (c34 two_scopes_parses).
  split; [exact G|]. split; [cbn; tauto|]. split.
  - apply (@const_value _ "X" (Decimal "5000000000") KU64); [exact G|reflexivity|reflexivity].
  - split; [apply (@by_gen 20); [vm_compute; reflexivity|easy]|].
    split; [cbn; right; left; reflexivity|]. split; reflexivity.
Qed.

(** ** C41 *)
Ltac each H :=
  match type of H with
  | False => destruct H
  | _ \/ _ => destruct H as [H|H]; each H
  | _ => first [discriminate H | injection H as <- <-]
  end.
Lemma proto_well_founded : well_founded_names proto.
Proof.
  exists (fun x => if String.eqb x "MAXLEN" then 0 else if String.eqb x "name" then 1 else 2)%nat. split.
  - intros x y H. vm_compute in H. each H; cbn; lia.
  - intros x d y H M. vm_compute in H. each H; cbn in M; try discriminate M; injection M as <-; cbn; lia.
Qed.

Definition loop_text : text := chars "const A = B; const B = A; enum e { M = A };".
Definition loop_defs : list definition :=
  Eval vm_compute in match parse 100 loop_text with GOk ds => ds | _ => [] end.
Lemma loop_parses : greturns (fun n => parse n loop_text) (GOk loop_defs).
Proof. apply (@by_parse 100). vm_compute. reflexivity. Qed.
Lemma loop_diverges cfg : gdiverges (fun n => gen_code n cfg loop_defs).
Proof.
  intros n. rewrite gen_code_eq.
  assert (R : forall n, resolve_name (ctx cfg loop_defs) n KI32 "A" = GFuel /\
                        resolve_name (ctx cfg loop_defs) n KI32 "B" = GFuel).
  { induction n0 as [|m [IH1 IH2]]; [easy|]. split.
    - change (resolve_name (ctx cfg loop_defs) (S m) KI32 "A") with
        (match resolve_name (ctx cfg loop_defs) m KI32 "B" with
         | GErr _ => @GErr Z (GNotFoundIdentifier "A") | r => r end). now rewrite IH2.
    - change (resolve_name (ctx cfg loop_defs) (S m) KI32 "B") with
        (match resolve_name (ctx cfg loop_defs) m KI32 "A" with
         | GErr _ => @GErr Z (GNotFoundIdentifier "B") | r => r end). now rewrite IH1. }
  change (constants_token (ctx cfg loop_defs)) with
    (GOk [ConstItem "A" false (TokId "B"); ConstItem "B" false (TokId "A")]).
  cbn [gbind]. unfold types_token.
  change (typedefs (ctx cfg loop_defs)) with [("e", TdEnum "e" [Assign "M" (VIdent "A")])].
  cbn [gmap type_token_of]. unfold convert_enum_token. cbn [gmap as_value resolve_value].
  now rewrite (proj1 (R n)).
Qed.

Definition typedef_loop_text : text := chars "typedef b a; typedef a b; struct s { a x; };".
Definition typedef_loop : list definition :=
  Eval vm_compute in match parse 100 typedef_loop_text with GOk ds => ds | _ => [] end.
Lemma typedef_loop_parses : greturns (fun n => parse n typedef_loop_text) (GOk typedef_loop).
Proof. apply (@by_parse 100). vm_compute. reflexivity. Qed.
Lemma typedef_loop_diverges f checks : gdiverges (fun n => gen_code n (main_config f checks) typedef_loop).
Proof.
  set (cfg := main_config f checks). intros n. rewrite gen_code_eq.
  assert (R : forall n, resolve_type_token (ctx cfg typedef_loop) n "a" = GFuel /\
                        resolve_type_token (ctx cfg typedef_loop) n "b" = GFuel).
  { induction n0 as [|m [IH1 IH2]]; [easy|]. split.
    - change (resolve_type_token (ctx cfg typedef_loop) (S m) "a") with
        (gbind (gbind (resolve_type_token (ctx cfg typedef_loop) m "b") (fun r => GOk (Some r))) required).
      now rewrite IH2.
    - change (resolve_type_token (ctx cfg typedef_loop) (S m) "b") with
        (gbind (gbind (resolve_type_token (ctx cfg typedef_loop) m "a") (fun r => GOk (Some r))) required).
      now rewrite IH1. }
  change (constants_token (ctx cfg typedef_loop)) with (@GOk (list const_item) []).
  cbn [gbind]. unfold types_token.
  change (typedefs (ctx cfg typedef_loop)) with
    [("a", TdDecl (DVariable (TsIdent "b") "a")); ("b", TdDecl (DVariable (TsIdent "a") "b"));
     ("s", TdStruct "s" [DVariable (TsIdent "a") "x"])].
  cbn [gmap type_token_of]. change (remove_typedef (cx_config (ctx cfg typedef_loop))) with true.
  cbn [gbind]. unfold convert_struct_token. cbn [gmap]. unfold struct_field.
  cbn [decl_name convert_type_token convert_primitive_token].
  now rewrite (proj1 (R n)).
Qed.

(** ** C42 *)
Lemma proto_names : names_ok proto.
Proof.
  unfold names_ok. vm_compute type_defs.
  repeat match goal with
  | |- Forall _ [] => constructor
  | |- Forall _ (_ :: _) => constructor
  | |- _ /\ _ => split
  | |- camelable _ => exact eq_refl
  | |- decl_names_ok _ => exact I || exact eq_refl
  | |- label_ok _ => exact I || exact eq_refl
  | |- field_ok _ => split; [|eexists; split; [reflexivity|vm_compute; intuition discriminate]]
  | |- case_ok _ => split
  | |- union_ok _ => cbn [union_ok]
  | |- _ => cbn [fst snd as_name]
  end; try exact I; try discriminate.
  intros _ _. exists (VIdent "TRUE"). cbn. tauto.
Qed.
(** numbers computed by the model are the ones of the specification *)
Lemma numbers_by cfg ds P Q : good_spec ds -> one_scope ds ->
  Forall (fun p : string * typedef => match snd p with
    | TdEnum _ l => Forall (fun a => exists w, resolve_value (ctx cfg ds) 20 KI32 (as_value a) = GOk w /\ P w) l
    | TdUnion _ (UBody c specs _) => mentions c <> Some TsBool ->
        Forall (fun v => exists w, resolve_value (ctx cfg ds) 20 KU32 v = GOk w /\ Q w) (labels specs)
    | _ => True end) (type_defs ds) ->
  numbers_ok P Q ds.
Proof.
  intros G S F. unfold numbers_ok. apply Forall_forall. intros [x t] H. rewrite Forall_forall in F.
  specialize (F _ H). cbn [snd] in *. destruct (good_types G H) as [gt _].
  assert (R : forall k v w z, good_value v -> resolve_value (ctx cfg ds) 20 k v = GOk w -> value_is ds v z -> z = w).
  { intros k v w z gv E V. destruct (resolves_value (good_spec_values G) S gv E) as [W _].
    eapply value_is_fun; eauto. }
  destruct t as [d|y l|y l|y [c specs o]]; try easy.
  - destruct gt as (_ & _ & gl). rewrite Forall_forall in F, gl |- *. intros a Ha z V.
    destruct (F a Ha) as (w & E & p). destruct (gl a Ha) as [_ gv]. now rewrite (R _ _ _ _ gv E V).
  - intros N. specialize (F N). destruct gt as (_ & (_ & _ & gs & _)). apply good_fold in gs.
    rewrite Forall_forall in F, gs |- *. intros v Hv z V. destruct (F v Hv) as (w & E & p).
    unfold labels in Hv. apply in_flat_map in Hv as ([vs d] & Hs & Hv). destruct (gs _ Hs) as (_ & gvs & _).
    rewrite Forall_forall in gvs. now rewrite (R _ _ _ _ (gvs v Hv) E V).
Qed.
Lemma numbers_check cfg ds (p q : Z -> bool) (P Q : Z -> Prop) :
  (forall z, p z = true -> P z) -> (forall z, q z = true -> Q z) -> good_spec ds -> one_scope ds ->
  forallb (fun d : string * typedef => match snd d with
    | TdEnum _ l => forallb (fun a => match resolve_value (ctx cfg ds) 20 KI32 (as_value a) with
                                      | GOk w => p w | _ => false end) l
    | TdUnion _ (UBody c specs _) =>
        match mentions c with
        | Some TsBool => true
        | _ => forallb (fun v => match resolve_value (ctx cfg ds) 20 KU32 v with
                                 | GOk w => q w | _ => false end) (labels specs)
        end
    | _ => true end) (type_defs ds) = true ->
  numbers_ok P Q ds.
Proof.
  intros HP HQ G S H. apply numbers_by with cfg; [exact G|exact S|].
  rewrite forallb_forall in H. apply Forall_forall. intros [x t] Hx. specialize (H _ Hx). cbn [snd] in *.
  destruct t as [d|y l|y l|y [c specs o]]; try easy.
  - rewrite forallb_forall in H. apply Forall_forall. intros a Ha. specialize (H _ Ha).
    destruct (resolve_value _ _ _ _) as [w| | |]; try discriminate. eauto.
  - intros N. assert (H' : forallb (fun v => match resolve_value (ctx cfg ds) 20 KU32 v with
                                 | GOk w => q w | _ => false end) (labels specs) = true).
    { destruct (mentions c) as [[]|]; try exact H. now destruct N. }
    rewrite forallb_forall in H'. apply Forall_forall. intros v Hv. specialize (H' _ Hv).
    destruct (resolve_value _ _ _ _) as [w| | |]; try discriminate. eauto.
Qed.
Lemma proto_numbers : numbers_ok
    (fun z => (overflow_checks plain_config = true \/ enum_complement_index plain_config = true -> z <> 2 ^ 31 - 1) /\
              (enum_complement_index plain_config = true -> -1 <= z))
    (fun z => overflow_checks plain_config = true -> z <> 2 ^ 32 - 1) proto.
Proof.
  apply numbers_check with plain_config (fun z => (-1 <=? z) && (z <? 1000))%Z (fun z => z <? 1000)%Z.
  - intros z H. lia.
  - intros z H. lia.
  - exact proto_good.
  - exact proto_scope.
  - vm_compute. reflexivity.
Qed.

(** files on which the generator panics, with the configuration *)
Definition panic_cases : list (config * string) :=
  [(plain_config, "struct s { int a; void; };");                                 (* a void member *)
   (plain_config, "struct s { int self; };");                                    (* r#self *)
   (plain_config, "struct _ { int a; };");                                       (* an empty name *)
   (plain_config, "enum e { _1 = 0 };");                                         (* the name 1 *)
   (union_config, "union u switch (bool b) { case 0: int x; };");                (* no TRUE, no FALSE *)
   (std_config, "enum e { A = 2147483647 };");                                   (* overflow *)
   (plain_config, "enum e { A = -2, B = 0 };");                                  (* _Reserved-1 *)
   (union_config, "union u switch (int k) { case 4294967295: void; };")].
Definition panics (p : config * string) : Prop :=
  exists ds, greturns (fun n => parse n (chars (snd p))) (GOk ds) /\
             greturns (fun n => gen_code n (fst p) ds) GPanic.
Lemma panics_by p : match parse 100 (chars (snd p)) with
                    | GOk ds => match gen_code 20 (fst p) ds with GPanic => true | _ => false end
                    | _ => false end = true -> panics p.
Proof.
  destruct (parse 100 _) as [ds| | |] eqn:e; try discriminate.
  destruct (gen_code 20 (fst p) ds) eqn:g; try discriminate. intros _.
  exists ds. split; [exact (by_parse e)|exact (by_gen g ltac:(easy))].
Qed.
Lemma c42_refuted : Forall panics panic_cases.
Proof. repeat (constructor; [apply panics_by; vm_compute; reflexivity|]). constructor. Qed.

(** ** C53 *)
Definition wide_text : text := chars "const A = 5000000000; const B = A;".
Definition wide : list definition :=
  Eval vm_compute in match parse 100 wide_text with GOk ds => ds | _ => [] end.
Lemma wide_parses : greturns (fun n => parse n wide_text) (GOk wide).
Proof. apply (@by_parse 100). vm_compute. reflexivity. Qed.
Lemma c53_refuted : exists ds, good_spec ds /\ In (DefConst (Assign "B" (VIdent "A"))) ds /\
  value_is ds (VIdent "A") 5000000000 /\
  forall cfg, exists f, greturns (fun n => gen_code n cfg ds) (GOk f) /\
    In (ConstItem "B" false (TokId "A")) (fi_consts f).
Proof.
  assert (G : good_spec wide) by exact (c34 wide_parses).
  exists wide. split; [exact G|]. split; [cbn; tauto|]. split.
  - apply (@const_value _ "A" (Decimal "5000000000") KU64); [exact G|reflexivity|reflexivity].
  - intros cfg. eexists. split; [apply (@by_gen 20); [reflexivity|easy]|]. right. left. reflexivity.
Qed.
Definition huge_text : text := chars "const A = 1; const B = 18446744073709551616;".
Definition huge : list definition :=
  Eval vm_compute in match parse 100 huge_text with GOk ds => ds | _ => [] end.
Lemma huge_parses : greturns (fun n => parse n huge_text) (GOk huge).
Proof. apply (@by_parse 100). vm_compute. reflexivity. Qed.
Lemma negative_case : exists ds c z, good_spec ds /\ In ("A", VConst c) (const_defs ds) /\
  stands_for c z /\ ~ 0 <= z < 2 ^ 64.
Proof.
  assert (P : greturns (fun n => parse n (chars "const A = -1;")) (GOk [DefConst (Assign "A" (dec "-1"))]))
    by (apply (@by_parse 100); vm_compute; reflexivity).
  assert (G := c34 P). exists [DefConst (Assign "A" (dec "-1"))], (Decimal "-1"), (-1).
  split; [exact G|]. split; [cbn; tauto|]. split; [|lia].
  apply (@const_stands _ "A" KI32 _ _ G); [cbn; tauto|reflexivity].
Qed.

(** ** C57 *)
Definition clash_text : text := chars "enum e { A_B = 0, AB = 1 };".
Definition clash : list definition :=
  Eval vm_compute in match parse 100 clash_text with GOk ds => ds | _ => [] end.
Lemma clash_parses : greturns (fun n => parse n clash_text) (GOk clash).
Proof. apply (@by_parse 100). vm_compute. reflexivity. Qed.
Lemma c57_refuted : exists x y ds f e, good_name x /\ good_name y /\ x <> y /\
  In (DefType (TdEnum "e" [Assign x (dec "0"); Assign y (dec "1")])) ds /\
  greturns (fun n => gen_code n plain_config ds) (GOk f) /\
  In (IEnum e) (fi_types f) /\ exists z, en_values e = [(z, 0); (z, 1)].
Proof.
  exists "A_B", "AB", clash, (file_of plain_config clash). eexists.
  assert (G := c34 clash_parses). inversion G as [|? ? g _]; subst. cbn in g. destruct g as (_ & _ & gl).
  inversion gl as [|? ? [g1 _] gl']; subst. inversion gl' as [|? ? [g2 _] _]; subst.
  split; [exact g1|]. split; [exact g2|]. split; [discriminate|]. split; [cbn; tauto|].
  split; [apply (@by_gen 20); [vm_compute; reflexivity|easy]|].
  split; [vm_compute; left; reflexivity|]. now exists "AB".
Qed.
Lemma screaming_by c t : is_upper c && forallb (fun d => is_upper d || is_digit d) t = true ->
  screaming_part (c :: t).
Proof.
  intros H. apply andb_true_iff in H as [H1 H2]. exists c, t. split; [easy|]. split; [now apply capital_spec|].
  rewrite forallb_forall in H2. apply Forall_forall. intros d Hd. specialize (H2 d Hd).
  rewrite orb_true_iff in H2. destruct H2; [left; now apply capital_spec|right; now apply numeral_spec].
Qed.
Lemma screaming_case : screaming (chars "NFS3ERR_NOT_SYNC") /\ In underscore (chars "NFS3ERR_NOT_SYNC").
Proof.
  split; [|vm_compute; tauto]. exists [chars "NFS3ERR"; chars "NOT"; chars "SYNC"].
  split; [easy|]. split; [|reflexivity].
  constructor; [now apply screaming_by|]. constructor; [now apply screaming_by|].
  constructor; [now apply screaming_by|constructor].
Qed.

(** ** C58 *)
Definition bare_text : text := chars "struct s { int Type; };".
Definition bare : list definition :=
  Eval vm_compute in match parse 100 bare_text with GOk ds => ds | _ => [] end.
Lemma bare_parses : greturns (fun n => parse n bare_text) (GOk bare).
Proof. apply (@by_parse 100). vm_compute. reflexivity. Qed.
Lemma c58_refuted : exists ds f y, good_spec ds /\ greturns (fun n => gen_code n plain_config ds) (GOk f) /\
  emitted_field f (Id y) /\ In y rust_words.
Proof.
  exists bare, (file_of plain_config bare), "type". split; [exact (c34 bare_parses)|].
  split; [apply (@by_gen 20); [vm_compute; reflexivity|easy]|]. split; [|vm_compute; tauto].
  do 2 eexists. split; [vm_compute; left; reflexivity|]. split; [left; reflexivity|reflexivity].
Qed.
Lemma raw_case : emitted_field proto_file (RawId "type").
Proof.
  do 2 eexists. split; [right; left; reflexivity|]. split; [do 5 right; left; reflexivity|reflexivity].
Qed.
