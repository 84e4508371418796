(** Specification vocabulary for C118: the interface files for which the generator
    returns an error, and which error. *)
From Verif Require Import Base RustTypes Nom Ast ParserModel SpecGrammar SpecParse SpecCase CaseModel RustAst GenModel SpecGen SpecTranslate SpecToolPanic.
Local Open Scope string_scope.

Section With.
  Variables (cfg : config) (ds : list definition).

  (** types *)
  Inductive type_error : tyspec -> gen_error -> Prop :=
  | te_no_rust t : no_rust t -> type_error t GNotSupported
  | te_other x d t e : stands_in cfg ds x d -> mentions d = Some t -> type_error t e -> type_error (TsIdent x) e
  | te_size x d : stands_in cfg ds x d -> (forall t, mentions d = Some t -> typed cfg ds t) -> ~ sizes_ok d ->
      type_error (TsIdent x) GParse.
  Definition decl_error (d : decl) (e : gen_error) : Prop :=
    (exists t, mentions d = Some t /\ type_error t e) \/
    (forall t, mentions d = Some t -> typed cfg ds t) /\ ~ sizes_ok d /\ e = GParse.

  (** unions *)
  Definition label_error (t : tyspec) (q : Z * decl * value) (e : gen_error) : Prop :=
    label_ok (snd q) /\ switch_name_ok cfg ds t /\ decl_error (snd (fst q)) e.
  Definition arm_error (v : string) (specs : list cspec) (e : gen_error) : Prop :=
    exists d, arm_of (VIdent v) specs d /\ decl_error d e.
  Definition default_error (o : option decl) (e : gen_error) : Prop := exists d, o = Some d /\ decl_error d e.
  Definition switch_error (t : tyspec) (specs : list cspec) (dflt : option decl) (e : gen_error) : Prop :=
    match t with
    | TsInt _ | TsIdent _ =>
        (exists a p b, arms_of specs = (a ++ p :: b)%list /\
           Forall (fun p => exists z, number_is ds KU32 (snd p) z /\ 0 <= z < 2 ^ 32) a /\ number_error ds KU32 (snd p) e) \/
        exists l, numbered ds specs l /\
          ((exists q, reached cfg ds t l q /\ label_error t q e) \/
           Forall (label_fine cfg ds t) l /\ default_error dflt e)
    | TsBool =>
        arm_error "FALSE" specs e \/
        arm_fine cfg ds "FALSE" specs /\ arm_error "TRUE" specs e \/
        arm_fine cfg ds "FALSE" specs /\ arm_fine cfg ds "TRUE" specs /\ default_error dflt e
    | _ => e = GNotSupported
    end.
  Definition union_error (u : ubody) (e : gen_error) : Prop :=
    match u with
    | UBody c specs dflt =>
        (exists t x, c = DVariable t x /\ switch_error t specs dflt e) \/
        (forall t x, c <> DVariable t x) /\ e = GNotSupported
    end.

  Definition definition_error (p : string * typedef) (e : gen_error) : Prop :=
    match snd p with
    | TdDecl d => remove_typedef cfg = false /\
        (decl_error d e \/ expressible cfg ds d /\ is_opaque d /\ e = GNotSupported)
    | TdEnum _ l =>
        exists a m b, l = (a ++ m :: b)%list /\
          Forall (fun a => exists z, number_is ds KI32 (as_value a) z /\ - 2 ^ 31 <= z < 2 ^ 31) a /\
          number_error ds KI32 (as_value m) e
    | TdStruct _ l =>
        exists a d b, l = (a ++ d :: b)%list /\ Forall (member_ok cfg ds) a /\ d <> DVoid /\ decl_error d e
    | TdUnion _ u => camelable (fst p) /\ union_error u e
    end.

  (** the first definition that is not translated, constants before types, is
      one that gives the error [e] *)
  Definition fails_with (e : gen_error) : Prop :=
    (exists a p b, const_defs ds = (a ++ p :: b)%list /\ Forall (fun p => constant_ok (snd p)) a /\
       ~ constant_ok (snd p) /\ e = GParse) \/
    Forall (fun p => constant_ok (snd p)) (const_defs ds) /\
    exists a p b, type_defs ds = (a ++ p :: b)%list /\ Forall (type_ok cfg ds) a /\ definition_error p e.
End With.
