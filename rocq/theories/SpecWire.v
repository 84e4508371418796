(** Specification vocabulary: what it means that a Rust type speaks XDR, and
    which items and variants of a generated file belong to a definition. *)
From Verif Require Import Base RustTypes SpecXdr SpecTypes SerModel DeModel Nom Ast ParserModel SpecGrammar SpecParse
  SpecCase RustAst GenModel SpecGen SpecItems SpecXdl GenSem.
Local Open Scope string_scope.

(** the Rust value [v] of type [t] is written as the RFC 4506 encoding of [x]
    and that encoding is read as [v] *)
Definition speaks (E : env) (t : ty) (v : rval) (x : xv) : Prop :=
  (exists bs, rfc x bs) /\
  forall bs, rfc x bs ->
    returns (fun n => to_bytes n E t v) (Ok bs) /\ returns (fun n => from_bytes n E t bs) (Ok v).

(** the word that encodes the number [z] is not accepted *)
Definition rejects (E : env) (t : ty) (z : Z) : Prop :=
  forall bs, signed 4 z bs -> exists e, returns (fun n => from_bytes n E t bs) (Err e).

(** the file is generated and well typed, and [E] gives the types of its items *)
Definition generated (cfg : config) (ds : list definition) (f : file) (E : env) : Prop :=
  greturns (fun n => gen_code n cfg ds) (GOk f) /\ file_env f = Some E.

(** the name of the variant for arm [arm], which the discriminant [z] selects *)
Definition arm_for (ds : list definition) (dm : bool) (specs : list cspec) (dflt : option decl)
    (z : Z) (arm : decl) (n : string) : Prop :=
  (exists vs x, In (CaseSpec vs arm) specs /\ In (VIdent x) vs /\ label_is ds (VIdent x) z /\
     camel_of x n) \/
  dm = true /\ dflt = Some arm /\ (forall v, In v (labels specs) -> ~ label_is ds v z) /\
    n = "Default".

(** [i] is the index of the variant [n] *)
Definition variant_at (u : union_item) (i : nat) (n : string) : Prop :=
  exists va, nth_error (un_variants u) i = Some va /\ va_name va = TokId n.

(** no Rust value of type [t] is written as the RFC encoding of [x] *)
Definition mute (E : env) (t : ty) (x : xv) : Prop :=
  forall v bs, rfc x bs -> ~ returns (fun n => to_bytes n E t v) (Ok bs).

(** [d] declares what [d'] declares, after replacing typedef names; the name
    that is declared does not matter *)
Definition renamed (y : string) (d : decl) : decl :=
  match d with
  | DVariable t _ => DVariable t y
  | DFixedArray t _ v => DFixedArray t y v
  | DVariableArray t _ v => DVariableArray t y v
  | DOpaqueFixed _ v => DOpaqueFixed y v
  | DOpaqueVariable _ v => DOpaqueVariable y v
  | DString _ v => DString y v
  | DOption t _ => DOption t y
  | DVoid => DVoid
  end.
Inductive expands (ds : list definition) : decl -> decl -> Prop :=
| ex_same d y : expands ds d (renamed y d)
| ex_typedef n x d d' : first n (type_defs ds) (TdDecl d) -> expands ds d d' ->
    expands ds (DVariable (TsIdent n) x) d'.

(** [Box<T>] is encoded as [T] *)
Definition unboxed (t : ty) : ty := match t with TBox t => t | _ => t end.
