(** Model: the work of rpcgen's parser (C109).

    A counting parser gives what the parser gives together with a number of
    steps: how many times it calls one of nom's elementary matchers ([tag],
    [take_until], [one_of], the [multispace]/[alpha]/[digit] families and the
    line matchers), parser.rs:3-14.  Each such call looks at the remaining text
    at most once.

    The combinators follow Nom.v and the grammar functions follow
    ParserModel.v, line by line; that the counting leaves the results as they
    are is proved in CostProofs.v ([erase]). *)
From Verif Require Import Base Nom Keyword Ast ParserModel.
Local Open Scope string_scope.
Local Open Scope Z_scope.

Notation cparser A := (text -> pres A * Z).

(** ** Elementary matchers: one step *)
Definition once {A} (p : nparser A) : cparser A := fun i => (p i, 1).
Definition c_tag (s : string) : cparser unit := once (tag s).
Definition c_take_until (s : string) : cparser text := once (take_until s).
Definition c_multispace0 : cparser text := once multispace0.
Definition c_multispace1 : cparser text := once multispace1.
Definition c_alpha1 : cparser text := once alpha1.
Definition c_alphanumeric1 : cparser text := once alphanumeric1.
Definition c_digit1 : cparser text := once digit1.
Definition c_hex_digit1 : cparser text := once hex_digit1.
Definition c_oct_digit1 : cparser text := once oct_digit1.
Definition c_one_of (s : string) : cparser ascii := once (one_of s).
Definition c_not_line_ending : cparser text := once not_line_ending.
Definition c_line_ending : cparser unit := once line_ending.

(** ** Combinators (Nom.v): the steps of the parsers that they call *)
Definition c_bind {A B} (p : cparser A) (f : A -> cparser B) : cparser B := fun i =>
  match p i with
  | (POk a r, m) => let '(x, k) := f a r in (x, m + k)
  | (PErr, m) => (PErr, m)
  | (PFuel, m) => (PFuel, m)
  end.
Definition c_ret {A} (a : A) : cparser A := fun i => (POk a i, 0).
Definition c_pmap {A B} (p : cparser A) (f : A -> B) : cparser B :=
  c_bind p (fun a => c_ret (f a)).
Definition c_pair {A B} (p : cparser A) (q : cparser B) : cparser (A * B) :=
  c_bind p (fun a => c_bind q (fun b => c_ret (a, b))).
Definition c_preceded {A B} (p : cparser A) (q : cparser B) : cparser B :=
  c_bind p (fun _ => q).
Definition c_terminated {A B} (p : cparser A) (q : cparser B) : cparser A :=
  c_bind p (fun a => c_bind q (fun _ => c_ret a)).
Definition c_delimited {A B C} (p : cparser A) (q : cparser B) (s : cparser C) : cparser B :=
  c_preceded p (c_terminated q s).
Definition c_opt {A} (p : cparser A) : cparser (option A) := fun i =>
  match p i with
  | (POk a r, m) => (POk (Some a) r, m)
  | (PErr, m) => (POk None i, m)
  | (PFuel, m) => (PFuel, m)
  end.
Definition c_peek {A} (p : cparser A) : cparser A := fun i =>
  match p i with
  | (POk a _, m) => (POk a i, m)
  | (PErr, m) => (PErr, m)
  | (PFuel, m) => (PFuel, m)
  end.
Definition c_recognize {A} (p : cparser A) : cparser text := fun i =>
  match p i with
  | (POk _ r, m) => (POk (firstn (length i - length r) i) r, m)
  | (PErr, m) => (PErr, m)
  | (PFuel, m) => (PFuel, m)
  end.
Definition c_verify {A} (p : cparser A) (f : A -> bool) : cparser A := fun i =>
  match p i with
  | (POk a r, m) => (if f a then POk a r else PErr, m)
  | (PErr, m) => (PErr, m)
  | (PFuel, m) => (PFuel, m)
  end.
Definition c_por {A} (p q : cparser A) : cparser A := fun i =>
  match p i with
  | (PErr, m) => let '(x, k) := q i in (x, m + k)
  | x => x
  end.
Definition c_pfail {A} : cparser A := fun _ => (PErr, 0).
Definition c_alt {A} (l : list (cparser A)) : cparser A := fold_right c_por c_pfail l.

Fixpoint c_many0_n {A} (n : nat) (p : cparser A) (i : text) : pres (list A) * Z :=
  match n with
  | O => (PFuel, 0)
  | S n =>
      match p i with
      | (PErr, m) => (POk [] i, m)
      | (PFuel, m) => (PFuel, m)
      | (POk a r, m) =>
          if Nat.eqb (length r) (length i) then (PErr, m)
          else match c_many0_n n p r with
               | (POk l r, k) => (POk (a :: l) r, m + k)
               | (PErr, k) => (PErr, m + k)
               | (PFuel, k) => (PFuel, m + k)
               end
      end
  end.
Definition c_many0 {A} (p : cparser A) : cparser (list A) := fun i => c_many0_n (S (length i)) p i.
Definition c_many1 {A} (p : cparser A) : cparser (list A) :=
  c_bind p (fun a => c_pmap (c_many0 p) (cons a)).
Definition c_separated_list1 {A B} (sep : cparser B) (p : cparser A) : cparser (list A) :=
  c_bind p (fun a => c_pmap (c_many0 (c_preceded sep p)) (cons a)).

(** ** Grammar functions (ParserModel.v) *)
(** comment0, parser.rs:458-467 *)
Definition c_comment : cparser text :=
  c_terminated (c_delimited (c_tag "/*") (c_take_until "*/") (c_tag "*/")) c_multispace0.
Definition c_comment0 : cparser (option (list text)) :=
  c_preceded c_multispace0 (c_opt (c_many1 c_comment)).

(** identifier, parser.rs:590-599 *)
Definition c_identifier : cparser string :=
  c_pmap (c_verify (c_recognize (c_pair (c_alt [c_alpha1; c_pmap (c_tag "_") (fun _ => chars "_")])
                                (c_many0 (c_alt [c_alphanumeric1; c_pmap (c_tag "_") (fun _ => chars "_")]))))
               (fun i => negb (xdr_reserved (str i))))
       str.

(** decimal_nonzero, parser.rs:491-497 *)
Definition c_decimal_nonzero : cparser constant :=
  c_pmap (c_recognize (c_pair (c_opt (c_tag "-")) (c_pair (c_one_of "1234567879") (c_many0 c_digit1))))
       (fun v => Decimal (str v)).
(** hexadecimal, parser.rs:582-588 *)
Definition c_hexadecimal : cparser constant :=
  c_pmap (c_preceded (c_tag "0x") (c_recognize (c_many1 c_hex_digit1))) (fun v => Hex (str v)).
(** octal, parser.rs:601-607 *)
Definition c_octal : cparser constant :=
  c_pmap (c_preceded (c_tag "0") (c_recognize (c_many1 c_oct_digit1))) (fun v => Octal (str v)).
(** constant, parser.rs:473-481 *)
Definition c_constant_p : cparser constant :=
  c_alt [c_decimal_nonzero; c_hexadecimal; c_octal; c_pmap (c_tag "0") (fun _ => Decimal "0")].
(** value, parser.rs:770-776 *)
Definition c_value_p : cparser value := c_alt [c_pmap c_constant_p VConst; c_pmap c_identifier VIdent].

(** assign, parser.rs:435-441 *)
Definition c_assign_p : cparser assign :=
  c_pmap (c_pair c_identifier (c_preceded (c_pair c_comment0 (c_pair (c_tag "=") c_comment0)) c_value_p))
       (fun '(i, v) => Assign i v).

(** constant_def, parser.rs:483-489 *)
Definition c_constant_def : cparser assign :=
  c_preceded (c_pair (c_tag "const") c_multispace1)
           (c_terminated c_assign_p (c_pair c_comment0 (c_tag ";"))).

(** comment_line, parser.rs:469-471 *)
Definition c_comment_line : cparser text := c_delimited (c_tag "%") c_not_line_ending c_line_ending.

(** enum_body, parser.rs:565-572 *)
Definition c_enum_body : cparser (list assign) :=
  c_delimited (c_pair (c_tag "{") c_comment0)
            (c_separated_list1 (c_pair c_comment0 (c_pair (c_tag ",") c_comment0)) c_assign_p)
            (c_pair c_comment0 (c_tag "}")).
(** enum_type_spec, parser.rs:574-580 *)
Definition c_enum_type_spec : cparser (list assign) :=
  c_preceded (c_pair (c_tag "enum") c_multispace1) c_enum_body.

Section CWithTypeSpecifier.
  Variable c_type_specifier : cparser tyspec.

  (** declaration, parser.rs:499-553 *)
  Definition c_declaration : cparser decl :=
    c_alt [c_pmap (c_tag "void") (fun _ => DVoid);
         c_pmap (c_pair (c_preceded (c_pair (c_tag "opaque") c_multispace1) c_identifier)
                    (c_delimited (c_tag "[") c_value_p (c_tag "]")))
              (fun '(i, v) => DOpaqueFixed i v);
         c_pmap (c_pair (c_preceded (c_pair (c_tag "opaque") c_multispace1) c_identifier)
                    (c_delimited (c_tag "<") (c_opt c_value_p) (c_tag ">")))
              (fun '(i, v) => DOpaqueVariable i v);
         c_pmap (c_pair (c_preceded (c_pair (c_tag "string") c_multispace1) c_identifier)
                    (c_delimited (c_tag "<") (c_opt c_value_p) (c_tag ">")))
              (fun '(i, v) => DString i v);
         c_pmap (c_pair c_type_specifier
                 (c_pair (c_preceded c_multispace1 c_identifier)
                       (c_delimited (c_tag "[") c_value_p (c_tag "]"))))
              (fun '(t, (i, v)) => DFixedArray t i v);
         c_pmap (c_pair c_type_specifier
                 (c_pair (c_preceded c_multispace1 c_identifier)
                       (c_delimited (c_tag "<") (c_opt c_value_p) (c_tag ">"))))
              (fun '(t, (i, v)) => DVariableArray t i v);
         c_pmap (c_pair c_type_specifier
                 (c_preceded (c_pair c_multispace0 (c_pair (c_tag "*") c_multispace0)) c_identifier))
              (fun '(t, i) => DOption t i);
         c_pmap (c_pair c_type_specifier (c_preceded c_multispace1 c_identifier))
              (fun '(t, i) => DVariable t i)].

  (** case_spec, parser.rs:443-456 *)
  Definition c_case_label : cparser value :=
    c_delimited (c_pair c_comment0 (c_pair (c_tag "case") c_comment0)) c_value_p
              (c_pair c_comment0 (c_pair (c_tag ":") c_comment0)).
  Definition c_case_spec : cparser cspec :=
    c_pmap (c_pair (c_many1 c_case_label) (c_terminated c_declaration (c_pair c_comment0 (c_tag ";"))))
         (fun '(v, d) => CaseSpec v d).

  (** struct_body, parser.rs:613-620 *)
  Definition c_struct_body : cparser (list decl) :=
    c_delimited (c_pair (c_tag "{") c_comment0)
              (c_many1 (c_terminated c_declaration (c_pair c_comment0 (c_pair (c_tag ";") c_comment0))))
              (c_pair c_comment0 (c_tag "}")).
  (** struct_type_spec, parser.rs:622-628 *)
  Definition c_struct_type_spec : cparser (list decl) :=
    c_preceded (c_pair (c_tag "struct") c_multispace1) c_struct_body.

  (** union_body, parser.rs:739-760 *)
  Definition c_union_body : cparser ubody :=
    c_pmap (c_pair (c_delimited (c_pair (c_tag "switch") (c_pair c_comment0 (c_pair (c_tag "(") c_comment0)))
                          c_declaration
                          (c_pair c_comment0 (c_pair (c_tag ")") (c_pair c_comment0 (c_pair (c_tag "{") c_comment0)))))
         (c_pair (c_many1 (c_terminated c_case_spec c_comment0))
               (c_terminated
                  (c_opt (c_delimited (c_pair c_comment0 (c_pair (c_tag "default") (c_pair c_comment0 (c_pair (c_tag ":") c_comment0))))
                                  c_declaration
                                  (c_pair c_comment0 (c_tag ";"))))
                  (c_pair c_comment0 (c_tag "}")))))
         (fun '(c, (s, d)) => UBody c s d).
  (** union_type_spec, parser.rs:762-768 *)
  Definition c_union_type_spec : cparser ubody :=
    c_preceded (c_pair (c_tag "union") c_multispace1) c_union_body.

  (** type_specifier, parser.rs:668-737 *)
  Definition c_unsigned_p (s : string) : cparser unit :=
    c_preceded (c_tag "unsigned") (c_preceded c_multispace1 (c_terminated (c_tag s) (c_peek c_multispace1))).
  Definition c_word_p (s : string) : cparser unit := c_terminated (c_tag s) (c_peek c_multispace1).
  Definition c_type_specifier_alts : cparser tyspec :=
    c_alt [c_pmap (c_unsigned_p "int") (fun _ => TsInt false);
         c_pmap (c_word_p "int") (fun _ => TsInt true);
         c_pmap (c_unsigned_p "hyper") (fun _ => TsHyper false);
         c_pmap (c_word_p "hyper") (fun _ => TsHyper true);
         c_pmap (c_unsigned_p "char") (fun _ => TsChar false);
         c_pmap (c_word_p "char") (fun _ => TsChar true);
         c_pmap (c_unsigned_p "short") (fun _ => TsShort false);
         c_pmap (c_word_p "short") (fun _ => TsShort true);
         c_pmap (c_word_p "unsigned") (fun _ => TsInt false);
         c_pmap (c_word_p "float") (fun _ => TsFloat);
         c_pmap (c_word_p "double") (fun _ => TsDouble);
         c_pmap (c_word_p "quadruple") (fun _ => TsQuadruple);
         c_pmap (c_word_p "bool") (fun _ => TsBool);
         c_pmap c_enum_type_spec TsEnum;
         c_pmap c_struct_type_spec TsStruct;
         c_pmap c_union_type_spec TsUnion;
         c_pmap c_identifier TsIdent].
End CWithTypeSpecifier.

Fixpoint c_type_specifier (n : nat) : cparser tyspec :=
  match n with
  | O => fun _ => (PFuel, 0)
  | S n => c_type_specifier_alts (c_type_specifier n)
  end.

Section CWithDepth.
  Variable n : nat.
  Let ts := c_type_specifier n.

  (** type_def, parser.rs:630-666 *)
  Definition c_type_def : cparser typedef :=
    c_alt [c_pmap (c_delimited (c_pair (c_tag "typedef") c_multispace1) (c_declaration ts) (c_pair c_comment0 (c_tag ";")))
              TdDecl;
         c_pmap (c_delimited (c_pair (c_tag "enum") c_multispace1)
                         (c_pair (c_terminated c_identifier c_comment0) c_enum_body)
                         (c_pair c_comment0 (c_tag ";")))
              (fun '(i, v) => TdEnum i v);
         c_pmap (c_delimited (c_pair (c_tag "struct") c_multispace1)
                         (c_pair (c_terminated c_identifier c_comment0) (c_struct_body ts))
                         (c_pair c_comment0 (c_tag ";")))
              (fun '(i, v) => TdStruct i v);
         c_pmap (c_delimited (c_pair (c_tag "union") c_multispace1)
                         (c_pair (c_terminated c_identifier c_comment0) (c_union_body ts))
                         (c_pair c_comment0 (c_tag ";")))
              (fun '(i, v) => TdUnion i v)].

  (** procedure, parser.rs:810-828 *)
  Definition c_proc_type : cparser tyspec := c_alt [ts; c_pmap (c_tag "void") (fun _ => TsVoid)].
  Definition c_number_p : cparser value :=
    c_delimited (c_pair (c_tag "=") c_multispace0) c_value_p (c_pair c_multispace0 (c_tag ";")).
  Definition c_procedure_p : cparser procedure :=
    c_pmap (c_pair (c_terminated c_proc_type c_multispace1)
         (c_pair c_identifier
         (c_pair (c_delimited (c_pair c_multispace0 (c_pair (c_tag "(") c_multispace0))
                          c_proc_type
                          (c_pair c_multispace0 (c_pair (c_tag ")") c_multispace0)))
               c_number_p)))
         (fun '(a, (b, (c, d))) => Procedure a b c d).

  (** version, parser.rs:794-808 *)
  Definition c_version_p : cparser version :=
    c_pmap (c_pair (c_preceded (c_pair (c_tag "version") c_multispace1) c_identifier)
         (c_pair (c_delimited (c_pair c_multispace0 (c_pair (c_tag "{") c_multispace0))
                          (c_many1 (c_terminated c_procedure_p c_multispace0))
                          (c_pair c_multispace0 (c_pair (c_tag "}") c_multispace0)))
               c_number_p))
         (fun '(a, (b, c)) => Version a b c).

  (** program, parser.rs:778-792 *)
  Definition c_program_p : cparser program :=
    c_pmap (c_pair (c_preceded (c_pair (c_tag "program") c_multispace1) c_identifier)
         (c_pair (c_delimited (c_pair c_multispace0 (c_pair (c_tag "{") c_multispace0))
                          (c_many1 c_version_p)
                          (c_pair c_multispace0 (c_pair (c_tag "}") c_multispace0)))
               c_number_p))
         (fun '(a, (b, c)) => Program a b c).

  (** definition, parser.rs:555-563 *)
  Definition c_definition_p : cparser definition :=
    c_alt [c_pmap c_constant_def DefConst;
         c_pmap c_type_def DefType;
         c_pmap c_program_p DefProgram;
         c_pmap c_comment_line (fun _ => DefLine)].

  (** specification, parser.rs:609-611 *)
  Definition c_specification : cparser (list definition) :=
    c_many0 (c_delimited c_comment0 c_definition_p c_comment0).
End CWithDepth.

(** the steps that [parse] takes, parser.rs:18-24; [n] is the bound on the
    nesting depth, as in [parse] *)
Definition steps (n : nat) (input : text) : Z := snd (c_specification n input).
