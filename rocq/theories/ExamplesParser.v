(** Concrete texts: the unit tests of rpcgen/src/parser.rs (lines 830-1614)
    replayed on the model, and the cases shown beside the parser theorems. *)
From Verif Require Import Base Nom Ast ParserModel SpecGrammar SpecParse
  ParseSound ParseComplete ConstProofs ParserLemmas.
Local Open Scope string_scope.
Local Open Scope list_scope.

Definition run {A} (p : nparser A) (s : string) : pres A := p (chars s).
Definition done {A} (a : A) : pres A := POk a [].
Definition dec (s : string) : value := VConst (Decimal s).
Notation ts := (type_specifier 50).
Definition nl : string := String (ascii_of_nat 10) "".

(** ** The unit tests of parser.rs *)
Example t_assign : run assign_p "a = b" = done (Assign "a" (VIdent "b")).
Proof. reflexivity. Qed.
Example t_case_spec : run (case_spec ts) ("case A:" ++ nl ++ "case B:" ++ nl ++ "void;")%string =
  done (CaseSpec [VIdent "A"; VIdent "B"] DVoid).
Proof. reflexivity. Qed.
Example t_comment0_0 : run comment0 "" = done None.
Proof. reflexivity. Qed.
Example t_comment0_1 : run comment0 "/* a */" = done (Some [chars " a "]).
Proof. reflexivity. Qed.
Example t_comment0_2 : run comment0 "/* a */ /* b */" = done (Some [chars " a "; chars " b "]).
Proof. reflexivity. Qed.
Example t_comment_line : run comment_line ("%a" ++ nl)%string = done (chars "a").
Proof. reflexivity. Qed.
Example t_dec_minus : run constant_p "-1" = done (Decimal "-1").
Proof. reflexivity. Qed.
Example t_dec_plus : run constant_p "1" = done (Decimal "1").
Proof. reflexivity. Qed.
Example t_hex : run constant_p "0x0102" = done (Hex "0102").
Proof. reflexivity. Qed.
Example t_oct : run constant_p "0102" = done (Octal "102").
Proof. reflexivity. Qed.
Example t_constant_def : run constant_def "const a = 1;" = done (Assign "a" (dec "1")).
Proof. reflexivity. Qed.
Example t_values : forall k,
  (constant_value k (Decimal "10"), constant_value k (Hex "10"), constant_value k (Octal "10"),
   constant_value k (Decimal "a")) = (GOk 10, GOk 16, GOk 8, GErr GParse).
Proof. now destruct k. Qed.
Example t_variable : run (declaration ts) "bool a" = done (DVariable TsBool "a").
Proof. reflexivity. Qed.
Example t_fixed : run (declaration ts) "bool a[2]" = done (DFixedArray TsBool "a" (dec "2")).
Proof. reflexivity. Qed.
Example t_var : run (declaration ts) "bool a<2>" = done (DVariableArray TsBool "a" (Some (dec "2"))).
Proof. reflexivity. Qed.
Example t_opaque_fixed : run (declaration ts) "opaque a[2]" = done (DOpaqueFixed "a" (dec "2")).
Proof. reflexivity. Qed.
Example t_opaque_var : run (declaration ts) "opaque a<2>" = done (DOpaqueVariable "a" (Some (dec "2"))).
Proof. reflexivity. Qed.
Example t_string : run (declaration ts) "string a<2>" = done (DString "a" (Some (dec "2"))).
Proof. reflexivity. Qed.
Example t_option : run (declaration ts) "bool *a" = done (DOption TsBool "a").
Proof. reflexivity. Qed.
Example t_void : run (declaration ts) "void" = done DVoid.
Proof. reflexivity. Qed.
Example t_def_const : run (definition_p 50) "const a = 1;" = done (DefConst (Assign "a" (dec "1"))).
Proof. reflexivity. Qed.
Example t_def_typedef : run (definition_p 50) "typedef void;" = done (DefType (TdDecl DVoid)).
Proof. reflexivity. Qed.
Example t_enum1 : run enum_type_spec "enum { a = 1 }" = done [Assign "a" (dec "1")].
Proof. reflexivity. Qed.
Example t_enum2 : run enum_type_spec "enum { a = 1, b = 2}" = done [Assign "a" (dec "1"); Assign "b" (dec "2")].
Proof. reflexivity. Qed.
Example t_ident_err : run identifier "1a" = PErr.
Proof. reflexivity. Qed.
Example t_ident : run identifier "a1_1" = done "a1_1".
Proof. reflexivity. Qed.
Example t_struct : run (struct_type_spec ts) "struct { void; }" = done [DVoid].
Proof. reflexivity. Qed.
Example t_td_decl : run (type_def 50) "typedef void;" = done (TdDecl DVoid).
Proof. reflexivity. Qed.
Example t_td_enum : run (type_def 50) "enum a { b = 0  };" = done (TdEnum "a" [Assign "b" (dec "0")]).
Proof. reflexivity. Qed.
Example t_td_struct : run (type_def 50) "struct a { void; };" = done (TdStruct "a" [DVoid]).
Proof. reflexivity. Qed.
Example t_td_union : run (type_def 50) "union a switch (void) { case b : void; };" =
  done (TdUnion "a" (UBody DVoid [CaseSpec [VIdent "b"] DVoid] None)).
Proof. reflexivity. Qed.
Example t_ts : map (fun s => run ts s)
  ["unsigned int "; "unsigned inta "; "int "; "inta "; "unsigned hyper "; "unsigned hypera ";
   "hyper "; "hypera "; "unsigned char "; "unsigned chara "; "char "; "chara "; "unsigned short ";
   "unsigned shorta "; "short "; "shorta "; "unsigned "; "unsigneda "; "float "; "floata "; "double "; "doublea "] =
  let sp := chars " " in
  [POk (TsInt false) sp; POk (TsInt false) (chars " inta "); POk (TsInt true) sp; POk (TsIdent "inta") sp;
   POk (TsHyper false) sp; POk (TsInt false) (chars " hypera "); POk (TsHyper true) sp;
   POk (TsIdent "hypera") sp; POk (TsChar false) sp; POk (TsInt false) (chars " chara "); POk (TsChar true) sp;
   POk (TsIdent "chara") sp; POk (TsShort false) sp; POk (TsInt false) (chars " shorta "); POk (TsShort true) sp;
   POk (TsIdent "shorta") sp; POk (TsInt false) sp; POk (TsIdent "unsigneda") sp; POk TsFloat sp; POk (TsIdent "floata") sp;
   POk TsDouble sp; POk (TsIdent "doublea") sp].
Proof. reflexivity. Qed.
Example t_value0 : run value_p "0" = done (dec "0").
Proof. reflexivity. Qed.
Example t_valuea : run value_p "a" = done (VIdent "a").
Proof. reflexivity. Qed.
Definition a_procedure := Procedure (TsInt true) "proc" TsVoid (VIdent "a").
Definition a_version := Version "v1" [a_procedure] (VIdent "b").
Example t_program : run (program_p 50) "program prog { version v1 { int proc(void) = a; } = b; } = c;" =
  done (Program "prog" [a_version] (VIdent "c")).
Proof. reflexivity. Qed.
Example t_version : run (version_p 50) "version v1 { int proc(void) = a; } = b;" = done a_version.
Proof. reflexivity. Qed.
Example t_procedure : run (procedure_p 50) "int proc(void) = a;" = done a_procedure.
Proof. reflexivity. Qed.

(** ** Cases *)
Definition sample_text : text := chars
  " /* limits */ const MAX = 0x10;
% a line
enum color { RED = 1 /* first */ , BLUE = MAX };
struct node { opaque id[MAX]; string name<>; color hue; node *next; unsigned hyper n<4>; };
union u switch (bool ok) { case TRUE: node n; case FALSE: void; };
union v switch (int k) { case 1: case 2: float x; default: struct { int y; } z; };
typedef quadruple q[2];".
Definition sample_ast : list definition :=
  [DefConst (Assign "MAX" (VConst (Hex "10")));
   DefLine;
   DefType (TdEnum "color" [Assign "RED" (dec "1"); Assign "BLUE" (VIdent "MAX")]);
   DefType (TdStruct "node"
     [DOpaqueFixed "id" (VIdent "MAX"); DString "name" None; DVariable (TsIdent "color") "hue";
      DOption (TsIdent "node") "next"; DVariableArray (TsHyper false) "n" (Some (dec "4"))]);
   DefType (TdUnion "u" (UBody (DVariable TsBool "ok")
     [CaseSpec [VIdent "TRUE"] (DVariable (TsIdent "node") "n"); CaseSpec [VIdent "FALSE"] DVoid] None));
   DefType (TdUnion "v" (UBody (DVariable (TsInt true) "k")
     [CaseSpec [dec "1"; dec "2"] (DVariable TsFloat "x")]
     (Some (DVariable (TsStruct [DVariable (TsInt true) "y"]) "z"))));
   DefType (TdDecl (DFixedArray TsQuadruple "q" (dec "2")))].

Lemma sample_parses : parse 400 sample_text = GOk sample_ast.
Proof. vm_compute. reflexivity. Qed.
Lemma sample_denotes : denotes_text sample_ast sample_text.
Proof. exact (parse_sound sample_parses). Qed.
Lemma sample_returns : greturns (fun n => parse n sample_text) (GOk sample_ast).
Proof. exact (c31 sample_denotes). Qed.

Lemma trailing_returns : greturns (fun n => parse n (chars "const A = 1; x")) (GErr GTrailingData).
Proof. apply (@parse_returns 50). cbn. lia. Qed.

(** the same definition in two layouts *)
Definition layout1 : text := chars "const A=1;".
Definition layout2 : text := chars "/* a */ const  A /* ; */ = /* b = 2 */ 1 ; /**/ ".
Lemma layouts : exists ds, denotes_text ds layout1 /\ denotes_text ds layout2 /\ ds <> [].
Proof.
  exists [DefConst (Assign "A" (dec "1"))].
  split; [|split; [|discriminate]]; apply (@parse_sound 80); vm_compute; reflexivity.
Qed.

Lemma comment_blank : blank (chars " /* no definitions */ ").
Proof.
  change (chars " /* no definitions */ ") with (" "%char :: (chars "/*" ++ chars " no definitions " ++ chars "*/" ++ chars " ")).
  apply bl_space; [reflexivity|]. apply bl_comment.
  - intros (p & q & E). assert (H : In "/"%char (chars " no definitions ")).
    { rewrite E. apply in_or_app. right. cbn. tauto. }
    cbn in H. repeat destruct H as [H|H]; try discriminate H. exact H.
  - apply bl_space; [reflexivity|constructor].
Qed.

Lemma simple_name x : match chars x with c :: t => name_start c && forallb name_char t | [] => false end = true ->
  existsb (String.eqb x) keywords = false -> good_name x.
Proof.
  intros H K. split.
  - destruct (chars x) as [|c t]; [discriminate|]. apply andb_prop in H as [H1 H2]. split; [exact H1|].
    now apply Forall_forall, forallb_forall.
  - intro I. assert (E : existsb (String.eqb x) keywords = true); [|congruence].
    apply existsb_exists. exists x. split; [exact I|apply String.eqb_refl].
Qed.

Lemma hex_max : good_constant (Hex "Ff") /\ stands_for (Hex "Ff") 255.
Proof.
  split; [split; [discriminate|repeat constructor]|].
  change 255 with ((0 * 16 + 15) * 16 + 15). apply (@sf_hex ["F"; "f"]%char).
  assert (D : forall c, In c ["f"; "F"]%char -> digit c 15).
  { intros c I. exists 15%nat, ["f"; "F"]%char. auto. }
  apply (@num_snoc 16 ["F"%char]); [apply (@num_snoc 16 []); [constructor| |lia]| |lia]; apply D; cbn; tauto.
Qed.

Lemma dec_minus : good_constant (Decimal "-3") /\ stands_for (Decimal "-3") (-3).
Proof.
  split.
  - right. exists (chars "-"), "3"%char, []. repeat split; auto; discriminate.
  - apply (@sf_negative ["3"%char] 3). change 3 with (0 * 10 + 3). apply (@num_snoc 10 []); [constructor| |lia].
    exists 3%nat, ["3"%char]. cbn. tauto.
Qed.
