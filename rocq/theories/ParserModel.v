(** Model of the grammar functions of rpcgen/src/parser.rs (lines 18-24 and
    435-828), function by function, on the nom model of Nom.v.

    The mutual recursion type_specifier -> struct_body/union_body ->
    declaration -> type_specifier is cut by a bound on the nesting depth,
    checked in [type_specifier]. *)
From Verif Require Import Base Nom Keyword Ast.
Local Open Scope string_scope.

(** comment0, parser.rs:458-467 *)
Definition comment : nparser text :=
  terminated (delimited (tag "/*") (take_until "*/") (tag "*/")) multispace0.
Definition comment0 : nparser (option (list text)) :=
  preceded multispace0 (opt (many1 comment)).

(** identifier, parser.rs:590-599 *)
Definition identifier : nparser string :=
  pmap (verify (recognize (pair (alt [alpha1; pmap (tag "_") (fun _ => chars "_")])
                                (many0 (alt [alphanumeric1; pmap (tag "_") (fun _ => chars "_")]))))
               (fun i => negb (xdr_reserved (str i))))
       str.

(** decimal_nonzero, parser.rs:491-497 *)
Definition decimal_nonzero : nparser constant :=
  pmap (recognize (pair (opt (tag "-")) (pair (one_of "1234567879") (many0 digit1))))
       (fun v => Decimal (str v)).
(** hexadecimal, parser.rs:582-588 *)
Definition hexadecimal : nparser constant :=
  pmap (preceded (tag "0x") (recognize (many1 hex_digit1))) (fun v => Hex (str v)).
(** octal, parser.rs:601-607 *)
Definition octal : nparser constant :=
  pmap (preceded (tag "0") (recognize (many1 oct_digit1))) (fun v => Octal (str v)).
(** constant, parser.rs:473-481 *)
Definition constant_p : nparser constant :=
  alt [decimal_nonzero; hexadecimal; octal; pmap (tag "0") (fun _ => Decimal "0")].
(** value, parser.rs:770-776 *)
Definition value_p : nparser value := alt [pmap constant_p VConst; pmap identifier VIdent].

(** assign, parser.rs:435-441 *)
Definition assign_p : nparser assign :=
  pmap (pair identifier (preceded (pair comment0 (pair (tag "=") comment0)) value_p))
       (fun '(i, v) => Assign i v).

(** constant_def, parser.rs:483-489 *)
Definition constant_def : nparser assign :=
  preceded (pair (tag "const") multispace1)
           (terminated assign_p (pair comment0 (tag ";"))).

(** comment_line, parser.rs:469-471 *)
Definition comment_line : nparser text := delimited (tag "%") not_line_ending line_ending.

(** enum_body, parser.rs:565-572 *)
Definition enum_body : nparser (list assign) :=
  delimited (pair (tag "{") comment0)
            (separated_list1 (pair comment0 (pair (tag ",") comment0)) assign_p)
            (pair comment0 (tag "}")).
(** enum_type_spec, parser.rs:574-580 *)
Definition enum_type_spec : nparser (list assign) :=
  preceded (pair (tag "enum") multispace1) enum_body.

Section WithTypeSpecifier.
  Variable type_specifier : nparser tyspec.

  (** declaration, parser.rs:499-553 *)
  Definition declaration : nparser decl :=
    alt [pmap (tag "void") (fun _ => DVoid);
         pmap (pair (preceded (pair (tag "opaque") multispace1) identifier)
                    (delimited (tag "[") value_p (tag "]")))
              (fun '(i, v) => DOpaqueFixed i v);
         pmap (pair (preceded (pair (tag "opaque") multispace1) identifier)
                    (delimited (tag "<") (opt value_p) (tag ">")))
              (fun '(i, v) => DOpaqueVariable i v);
         pmap (pair (preceded (pair (tag "string") multispace1) identifier)
                    (delimited (tag "<") (opt value_p) (tag ">")))
              (fun '(i, v) => DString i v);
         pmap (pair type_specifier
                 (pair (preceded multispace1 identifier)
                       (delimited (tag "[") value_p (tag "]"))))
              (fun '(t, (i, v)) => DFixedArray t i v);
         pmap (pair type_specifier
                 (pair (preceded multispace1 identifier)
                       (delimited (tag "<") (opt value_p) (tag ">"))))
              (fun '(t, (i, v)) => DVariableArray t i v);
         pmap (pair type_specifier
                 (preceded (pair multispace0 (pair (tag "*") multispace0)) identifier))
              (fun '(t, i) => DOption t i);
         pmap (pair type_specifier (preceded multispace1 identifier))
              (fun '(t, i) => DVariable t i)].

  (** case_spec, parser.rs:443-456 *)
  Definition case_label : nparser value :=
    delimited (pair comment0 (pair (tag "case") comment0)) value_p
              (pair comment0 (pair (tag ":") comment0)).
  Definition case_spec : nparser cspec :=
    pmap (pair (many1 case_label) (terminated declaration (pair comment0 (tag ";"))))
         (fun '(v, d) => CaseSpec v d).

  (** struct_body, parser.rs:613-620 *)
  Definition struct_body : nparser (list decl) :=
    delimited (pair (tag "{") comment0)
              (many1 (terminated declaration (pair comment0 (pair (tag ";") comment0))))
              (pair comment0 (tag "}")).
  (** struct_type_spec, parser.rs:622-628 *)
  Definition struct_type_spec : nparser (list decl) :=
    preceded (pair (tag "struct") multispace1) struct_body.

  (** union_body, parser.rs:739-760 *)
  Definition union_body : nparser ubody :=
    pmap (pair (delimited (pair (tag "switch") (pair comment0 (pair (tag "(") comment0)))
                          declaration
                          (pair comment0 (pair (tag ")") (pair comment0 (pair (tag "{") comment0)))))
         (pair (many1 (terminated case_spec comment0))
               (terminated
                  (opt (delimited (pair comment0 (pair (tag "default") (pair comment0 (pair (tag ":") comment0))))
                                  declaration
                                  (pair comment0 (tag ";"))))
                  (pair comment0 (tag "}")))))
         (fun '(c, (s, d)) => UBody c s d).
  (** union_type_spec, parser.rs:762-768 *)
  Definition union_type_spec : nparser ubody :=
    preceded (pair (tag "union") multispace1) union_body.

  (** type_specifier, parser.rs:668-737 *)
  Definition unsigned_p (s : string) : nparser unit :=
    preceded (tag "unsigned") (preceded multispace1 (terminated (tag s) (peek multispace1))).
  Definition word_p (s : string) : nparser unit := terminated (tag s) (peek multispace1).
  Definition type_specifier_alts : nparser tyspec :=
    alt [pmap (unsigned_p "int") (fun _ => TsInt false);
         pmap (word_p "int") (fun _ => TsInt true);
         pmap (unsigned_p "hyper") (fun _ => TsHyper false);
         pmap (word_p "hyper") (fun _ => TsHyper true);
         pmap (unsigned_p "char") (fun _ => TsChar false);
         pmap (word_p "char") (fun _ => TsChar true);
         pmap (unsigned_p "short") (fun _ => TsShort false);
         pmap (word_p "short") (fun _ => TsShort true);
         pmap (word_p "unsigned") (fun _ => TsInt false);
         pmap (word_p "float") (fun _ => TsFloat);
         pmap (word_p "double") (fun _ => TsDouble);
         pmap (word_p "quadruple") (fun _ => TsQuadruple);
         pmap (word_p "bool") (fun _ => TsBool);
         pmap enum_type_spec TsEnum;
         pmap struct_type_spec TsStruct;
         pmap union_type_spec TsUnion;
         pmap identifier TsIdent].
End WithTypeSpecifier.

Fixpoint type_specifier (n : nat) : nparser tyspec :=
  match n with
  | O => fun _ => PFuel
  | S n => type_specifier_alts (type_specifier n)
  end.

Section WithDepth.
  Variable n : nat.
  Let ts := type_specifier n.

  (** type_def, parser.rs:630-666 *)
  Definition type_def : nparser typedef :=
    alt [pmap (delimited (pair (tag "typedef") multispace1) (declaration ts) (pair comment0 (tag ";")))
              TdDecl;
         pmap (delimited (pair (tag "enum") multispace1)
                         (pair (terminated identifier comment0) enum_body)
                         (pair comment0 (tag ";")))
              (fun '(i, v) => TdEnum i v);
         pmap (delimited (pair (tag "struct") multispace1)
                         (pair (terminated identifier comment0) (struct_body ts))
                         (pair comment0 (tag ";")))
              (fun '(i, v) => TdStruct i v);
         pmap (delimited (pair (tag "union") multispace1)
                         (pair (terminated identifier comment0) (union_body ts))
                         (pair comment0 (tag ";")))
              (fun '(i, v) => TdUnion i v)].

  (** procedure, parser.rs:810-828 *)
  Definition proc_type : nparser tyspec := alt [ts; pmap (tag "void") (fun _ => TsVoid)].
  Definition number_p : nparser value :=
    delimited (pair (tag "=") multispace0) value_p (pair multispace0 (tag ";")).
  Definition procedure_p : nparser procedure :=
    pmap (pair (terminated proc_type multispace1)
         (pair identifier
         (pair (delimited (pair multispace0 (pair (tag "(") multispace0))
                          proc_type
                          (pair multispace0 (pair (tag ")") multispace0)))
               number_p)))
         (fun '(a, (b, (c, d))) => Procedure a b c d).

  (** version, parser.rs:794-808 *)
  Definition version_p : nparser version :=
    pmap (pair (preceded (pair (tag "version") multispace1) identifier)
         (pair (delimited (pair multispace0 (pair (tag "{") multispace0))
                          (many1 (terminated procedure_p multispace0))
                          (pair multispace0 (pair (tag "}") multispace0)))
               number_p))
         (fun '(a, (b, c)) => Version a b c).

  (** program, parser.rs:778-792 *)
  Definition program_p : nparser program :=
    pmap (pair (preceded (pair (tag "program") multispace1) identifier)
         (pair (delimited (pair multispace0 (pair (tag "{") multispace0))
                          (many1 version_p)
                          (pair multispace0 (pair (tag "}") multispace0)))
               number_p))
         (fun '(a, (b, c)) => Program a b c).

  (** definition, parser.rs:555-563 *)
  Definition definition_p : nparser definition :=
    alt [pmap constant_def DefConst;
         pmap type_def DefType;
         pmap program_p DefProgram;
         pmap comment_line (fun _ => DefLine)].

  (** specification, parser.rs:609-611 *)
  Definition specification : nparser (list definition) :=
    many0 (delimited comment0 definition_p comment0).
End WithDepth.

(** rpcgen/src/error.rs:5-11; [EParse] is the conversion from nom's error and
    from ParseIntError *)
Inductive gen_error := GNotFoundIdentifier (x : string) | GNotSupported | GParse | GTrailingData.

(** outcomes of rpcgen functions; as [res] with rpcgen's errors *)
Inductive gres (A : Type) := GOk (a : A) | GErr (e : gen_error) | GPanic | GFuel.
Arguments GOk {A} _.
Arguments GErr {A} _.
Arguments GPanic {A}.
Arguments GFuel {A}.

(** parser.rs:18-24 *)
Definition parse (n : nat) (input : text) : gres (list definition) :=
  match specification n input with
  | POk ret [] => GOk ret
  | POk _ (_ :: _) => GErr GTrailingData
  | PErr => GErr GParse
  | PFuel => GFuel
  end.

(** ** Numeric values of constants *)
(** char::to_digit *)
Definition to_digit (radix : Z) (c : ascii) : option Z :=
  let d := if is_digit c then Some (code c - 48)
           else if is_lower c then Some (code c - 87)
           else if is_upper c then Some (code c - 55)
           else None in
  match d with Some d => if (d <? radix)%Z then Some d else None | None => None end.

(** the target integer types of TryFrom<&Constant>, parser.rs:73-119; usize is
    64 bits wide *)
Inductive intkind := KI32 | KU32 | KU64 | KUsize.
Definition kind_signed (k : intkind) : bool := match k with KI32 => true | _ => false end.
Definition kind_min (k : intkind) : Z := match k with KI32 => - 2 ^ 31 | _ => 0 end.
Definition kind_max (k : intkind) : Z :=
  match k with KI32 => 2 ^ 31 - 1 | KU32 => 2 ^ 32 - 1 | KU64 | KUsize => 2 ^ 64 - 1 end.

(** the accumulating loops of core's from_str_radix: checked_mul, then
    checked_add (or checked_sub for a negative number) *)
Definition checked (k : intkind) (z : Z) : option Z :=
  if ((kind_min k <=? z) && (z <=? kind_max k))%Z then Some z else None.
Fixpoint accumulate (k : intkind) (radix sgn : Z) (acc : Z) (t : text) : option Z :=
  match t with
  | [] => Some acc
  | c :: t =>
      match checked k (acc * radix), to_digit radix c with
      | Some m, Some d =>
          match checked k (m + sgn * d) with
          | Some acc => accumulate k radix sgn acc t
          | None => None
          end
      | _, _ => None
      end
  end.

(** core's from_str_radix: an empty text and a lone sign are errors; a minus
    sign is accepted for signed types only *)
Definition from_str_radix (k : intkind) (radix : Z) (t : text) : option Z :=
  match t with
  | [] => None
  | [c] => if Ascii.eqb c "+"%char || Ascii.eqb c "-"%char then None else accumulate k radix 1 0 [c]
  | c :: t' =>
      if Ascii.eqb c "+"%char then accumulate k radix 1 0 t'
      else if Ascii.eqb c "-"%char && kind_signed k then accumulate k radix (-1) 0 t'
      else accumulate k radix 1 0 t
  end.

(** TryFrom<&Constant>, parser.rs:73-119, and Constant::value, parser.rs:63-71 *)
Definition constant_value (k : intkind) (c : constant) : gres Z :=
  match (match c with
         | Decimal s => from_str_radix k 10 (chars s)
         | Hex s => from_str_radix k 16 (chars s)
         | Octal s => from_str_radix k 8 (chars s)
         end) with
  | Some z => GOk z
  | None => GErr GParse
  end.
