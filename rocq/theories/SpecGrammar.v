(** Specification of the interface definition language read by rpcgen
    (RFC 4506 section 6 and RFC 5531 section 12, with the token spacing rpcgen
    requires), independent of the parser.

    A definition list is written as a sequence of [piece]s, fixed words and
    names with gaps between them ([w_spec]); a text of the language is obtained
    by giving each piece one of its written forms ([piece_text]). *)
From Verif Require Import Base Nom Ast.
Local Open Scope string_scope.

(** ** Lexical elements *)
Definition spaces (t : text) : Prop := Forall (fun c => is_space c = true) t.

Definition infix_of (s t : text) : Prop := exists p q, t = (p ++ s ++ q)%list.

(** white space and comments: comments are not nested *)
Inductive blank : text -> Prop :=
| bl_nil : blank []
| bl_space c t : is_space c = true -> blank t -> blank (c :: t)
| bl_comment b t : ~ infix_of (chars "*/") b -> blank t ->
    blank (chars "/*" ++ b ++ chars "*/" ++ t).

(** letters, digits and underscore *)
Definition name_char (c : ascii) : bool := is_alphanum c || Ascii.eqb c "_".
Definition name_start (c : ascii) : bool := is_alpha c || Ascii.eqb c "_".

Definition starts (f : ascii -> bool) (t : text) : Prop :=
  match t with c :: _ => f c = true | [] => False end.

(** RFC 4506 section 6.4, RFC 5531 section 12.3 *)
Definition keywords : list string :=
  ["bool"; "case"; "const"; "default"; "double"; "quadruple"; "enum"; "float"; "hyper"; "int";
   "opaque"; "string"; "struct"; "switch"; "typedef"; "union"; "unsigned"; "void";
   "program"; "version"].

(** RFC 4506 section 6.2: identifiers *)
Definition good_name (x : string) : Prop :=
  match chars x with
  | c :: t => name_start c = true /\ Forall (fun c => name_char c = true) t
  | [] => False
  end /\ ~ In x keywords.

(** RFC 4506 section 6.2: constants *)
Definition good_constant (c : constant) : Prop :=
  match c with
  | Decimal s =>
      s = "0" \/
      exists m d t, chars s = (m ++ d :: t)%list /\ (m = [] \/ m = chars "-") /\
        is_digit d = true /\ d <> "0"%char /\ Forall (fun c => is_digit c = true) t
  | Hex s => s <> "" /\ Forall (fun c => is_hex c = true) (chars s)
  | Octal s => s <> "" /\ Forall (fun c => is_oct c = true) (chars s)
  end.

Definition good_value (v : value) : Prop :=
  match v with VConst c => good_constant c | VIdent x => good_name x end.

Definition constant_text (c : constant) : string :=
  match c with Decimal s => s | Hex s => "0x" ++ s | Octal s => "0" ++ s end.
Definition value_text (v : value) : string :=
  match v with VConst c => constant_text c | VIdent x => x end.

(** ** Pieces *)
Inductive piece :=
| Lit (s : string)      (* these characters *)
| Name (x : string)     (* a name, not continued by what follows *)
| TypeName (x : string) (* a name used as a type *)
| Word (s : string)     (* the last word of a built-in type, followed by white space *)
| Unsigned              (* the type "unsigned int" or "unsigned" *)
| Sp0                   (* optional white space *)
| Sp1                   (* white space *)
| Bl                    (* optional white space and comments *)
| Line.                 (* a line starting with % *)

(** words that can follow "unsigned" in a type *)
Definition int_words : list string := ["int"; "hyper"; "char"; "short"].
(** words of built-in types that are not keywords: as names of types they must
    not be followed by white space *)
Definition soft_words : list string := ["char"; "short"].

(** [t] is a written form of the piece when it is followed by [r] *)
Definition piece_text (p : piece) (t r : text) : Prop :=
  match p with
  | Lit s => t = chars s
  | Name x => t = chars x /\ ~ starts name_char r
  | TypeName x =>
      t = chars x /\ ~ starts name_char r /\ (In x soft_words -> ~ starts is_space r)
  | Word s => t = chars s /\ starts is_space r
  | Unsigned =>
      starts is_space r /\
      ((exists w, t = (chars "unsigned" ++ w ++ chars "int")%list /\ w <> [] /\ spaces w) \/
       (t = chars "unsigned" /\
        ~ exists w x r', r = (w ++ chars x ++ r')%list /\ w <> [] /\ spaces w /\
                         In x int_words /\ starts is_space r'))
  | Sp0 => spaces t
  | Sp1 => spaces t /\ t <> []
  | Bl => blank t
  | Line => exists b, Forall (fun c => is_eol c = false) b /\
              (t = chars "%" ++ b ++ [lf] \/ t = chars "%" ++ b ++ [cr; lf])%list
  end.

(** [i] is a written form of the pieces followed by [r] *)
Inductive written : list piece -> text -> text -> Prop :=
| wr_nil r : written [] r r
| wr_cons p l t i r : piece_text p t i -> written l i r -> written (p :: l) (t ++ i) r.

(** ** Productions *)
Definition w_value (v : value) : list piece := [Lit (value_text v)].
Definition w_opt (o : option value) : list piece :=
  match o with Some v => w_value v | None => [] end.

Definition w_assign (a : assign) : list piece :=
  ([Name (as_name a); Bl; Lit "="; Bl] ++ w_value (as_value a))%list.

Fixpoint w_assigns (l : list assign) : list piece :=
  match l with
  | [] => []
  | [a] => w_assign a
  | a :: l => (w_assign a ++ [Bl; Lit ","; Bl] ++ w_assigns l)%list
  end.

Definition w_enum_body (l : list assign) : list piece :=
  ([Lit "{"; Bl] ++ w_assigns l ++ [Bl; Lit "}"])%list.

Definition w_unsigned (s : bool) (w : string) : list piece :=
  if s then [Word w] else [Lit "unsigned"; Sp1; Word w].

Definition w_label (v : value) : list piece :=
  ([Lit "case"; Bl] ++ w_value v ++ [Bl; Lit ":"; Bl])%list.

Fixpoint w_type (t : tyspec) : list piece :=
  match t with
  | TsInt true => [Word "int"]
  | TsInt false => [Unsigned]
  | TsHyper s => w_unsigned s "hyper"
  | TsChar s => w_unsigned s "char"
  | TsShort s => w_unsigned s "short"
  | TsFloat => [Word "float"]
  | TsDouble => [Word "double"]
  | TsQuadruple => [Word "quadruple"]
  | TsBool => [Word "bool"]
  | TsEnum l => [Lit "enum"; Sp1] ++ w_enum_body l
  | TsStruct l =>
      [Lit "struct"; Sp1; Lit "{"; Bl] ++
      flat_map (fun d => w_decl d ++ [Bl; Lit ";"; Bl]) l ++ [Lit "}"]
  | TsUnion u => [Lit "union"; Sp1] ++ w_union_body u
  | TsIdent x => [TypeName x]
  | TsVoid => [Lit "void"]
  end%list
with w_decl (d : decl) : list piece :=
  match d with
  | DVariable t x => w_type t ++ [Sp1; Name x]
  | DFixedArray t x v => w_type t ++ [Sp1; Name x; Lit "["] ++ w_value v ++ [Lit "]"]
  | DVariableArray t x o => w_type t ++ [Sp1; Name x; Lit "<"] ++ w_opt o ++ [Lit ">"]
  | DOpaqueFixed x v => [Lit "opaque"; Sp1; Name x; Lit "["] ++ w_value v ++ [Lit "]"]
  | DOpaqueVariable x o => [Lit "opaque"; Sp1; Name x; Lit "<"] ++ w_opt o ++ [Lit ">"]
  | DString x o => [Lit "string"; Sp1; Name x; Lit "<"] ++ w_opt o ++ [Lit ">"]
  | DOption t x => w_type t ++ [Sp0; Lit "*"; Sp0; Name x]
  | DVoid => [Lit "void"]
  end%list
with w_union_body (u : ubody) : list piece :=
  match u with
  | UBody c specs dflt =>
      [Lit "switch"; Bl; Lit "("; Bl] ++ w_decl c ++ [Bl; Lit ")"; Bl; Lit "{"; Bl] ++
      flat_map (fun s => w_case s ++ [Bl]) specs ++
      match dflt with
      | None => []
      | Some d => [Lit "default"; Bl; Lit ":"; Bl] ++ w_decl d ++ [Bl; Lit ";"; Bl]
      end ++ [Lit "}"]
  end%list
with w_case (s : cspec) : list piece :=
  match s with
  | CaseSpec vs d => flat_map w_label vs ++ w_decl d ++ [Bl; Lit ";"]
  end%list.

Definition w_struct_body (l : list decl) : list piece :=
  ([Lit "{"; Bl] ++ flat_map (fun d => w_decl d ++ [Bl; Lit ";"; Bl]) l ++ [Lit "}"])%list.

Definition w_typedef (t : typedef) : list piece :=
  match t with
  | TdDecl d => [Lit "typedef"; Sp1] ++ w_decl d ++ [Bl; Lit ";"]
  | TdEnum x l => [Lit "enum"; Sp1; Name x; Bl] ++ w_enum_body l ++ [Bl; Lit ";"]
  | TdStruct x l => [Lit "struct"; Sp1; Name x; Bl] ++ w_struct_body l ++ [Bl; Lit ";"]
  | TdUnion x u => [Lit "union"; Sp1; Name x; Bl] ++ w_union_body u ++ [Bl; Lit ";"]
  end%list.

Definition w_number (v : value) : list piece :=
  ([Lit "="; Sp0] ++ w_value v ++ [Sp0; Lit ";"])%list.

Definition w_procedure (p : procedure) : list piece :=
  (w_type (pr_res p) ++ [Sp1; Name (pr_name p); Sp0; Lit "("; Sp0] ++ w_type (pr_req p) ++
   [Sp0; Lit ")"; Sp0] ++ w_number (pr_value p))%list.

Definition w_version (v : version) : list piece :=
  ([Lit "version"; Sp1; Name (vs_name v); Sp0; Lit "{"; Sp0] ++
   flat_map (fun p => w_procedure p ++ [Sp0]) (vs_procs v) ++
   [Lit "}"; Sp0] ++ w_number (vs_value v))%list.

(** no white space between versions *)
Definition w_program (p : program) : list piece :=
  ([Lit "program"; Sp1; Name (pg_name p); Sp0; Lit "{"; Sp0] ++
   flat_map w_version (pg_versions p) ++
   [Sp0; Lit "}"; Sp0] ++ w_number (pg_value p))%list.

Definition w_definition (d : definition) : list piece :=
  match d with
  | DefType t => w_typedef t
  | DefConst a => [Lit "const"; Sp1] ++ w_assign a ++ [Bl; Lit ";"]
  | DefLine => [Line]
  | DefProgram p => w_program p
  end%list.

(** a file without definitions must be empty *)
Definition w_spec (ds : list definition) : list piece :=
  match ds with
  | [] => []
  | _ => Bl :: flat_map (fun d => w_definition d ++ [Bl])%list ds
  end.

(** ** Well-formed definitions *)
Definition good_assign (a : assign) : Prop := good_name (as_name a) /\ good_value (as_value a).
Definition good_opt (o : option value) : Prop := match o with Some v => good_value v | None => True end.
Definition nonempty {A} (l : list A) : Prop := l <> [].

(** in a declaration, a type name must not begin with "void" *)
Definition no_void_prefix (t : tyspec) : Prop :=
  match t with TsIdent x => strip (chars "void") (chars x) = None | TsVoid => False | _ => True end.

Fixpoint good_type (t : tyspec) : Prop :=
  match t with
  | TsEnum l => nonempty l /\ Forall good_assign l
  | TsStruct l => nonempty l /\ fold_right (fun d P => good_decl d /\ P) True l
  | TsUnion u => good_union_body u
  | TsIdent x => good_name x
  | _ => True
  end
with good_decl (d : decl) : Prop :=
  match d with
  | DVariable t x | DOption t x => good_type t /\ no_void_prefix t /\ good_name x
  | DFixedArray t x v => good_type t /\ no_void_prefix t /\ good_name x /\ good_value v
  | DVariableArray t x o => good_type t /\ no_void_prefix t /\ good_name x /\ good_opt o
  | DOpaqueFixed x v => good_name x /\ good_value v
  | DOpaqueVariable x o | DString x o => good_name x /\ good_opt o
  | DVoid => True
  end
with good_union_body (u : ubody) : Prop :=
  match u with
  | UBody c specs dflt =>
      good_decl c /\ nonempty specs /\ fold_right (fun s P => good_case s /\ P) True specs /\
      match dflt with Some d => good_decl d | None => True end
  end
with good_case (s : cspec) : Prop :=
  match s with CaseSpec vs d => nonempty vs /\ Forall good_value vs /\ good_decl d end.

Definition good_struct_body (l : list decl) : Prop := nonempty l /\ Forall good_decl l.

Definition good_typedef (t : typedef) : Prop :=
  match t with
  | TdDecl d => good_decl d
  | TdEnum x l => good_name x /\ nonempty l /\ Forall good_assign l
  | TdStruct x l => good_name x /\ good_struct_body l
  | TdUnion x u => good_name x /\ good_union_body u
  end.

Definition good_procedure (p : procedure) : Prop :=
  good_type (pr_res p) /\ good_name (pr_name p) /\ good_type (pr_req p) /\ good_value (pr_value p).
Definition good_version (v : version) : Prop :=
  good_name (vs_name v) /\ nonempty (vs_procs v) /\ Forall good_procedure (vs_procs v) /\
  good_value (vs_value v).
Definition good_program (p : program) : Prop :=
  good_name (pg_name p) /\ nonempty (pg_versions p) /\ Forall good_version (pg_versions p) /\
  good_value (pg_value p).

Definition good_definition (d : definition) : Prop :=
  match d with
  | DefType t => good_typedef t
  | DefConst a => good_assign a
  | DefLine => True
  | DefProgram p => good_program p
  end.

Definition good_spec (ds : list definition) : Prop := Forall good_definition ds.

(** [t] is a text of the language that denotes [ds] *)
Definition denotes_text (ds : list definition) (t : text) : Prop :=
  good_spec ds /\ written (w_spec ds) t [].
