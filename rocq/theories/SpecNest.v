(** Definitions that are not made of themselves (C96). *)
From Verif Require Import Base Ast SpecGrammar SpecGen SpecItems SpecAppend.

(** Every name has a rank, names that become the same Rust name have the same one,
    and a type ranks above the types that its declarations mention. *)
Definition layered (ds : list definition) : Prop :=
  exists rank : string -> nat,
    (forall x y c, camel_of x c -> camel_of y c -> rank x = rank y) /\
    (forall x td d y, In (x, td) (type_defs ds) -> In d (parts td) -> mentions d = Some (TsIdent y) ->
       (rank y < rank x)%nat).

(** ** Values that are held in place (C71) *)
(** what a declaration holds in place: not the elements of a variable-length array *)
Definition embeds (d : decl) : option tyspec :=
  match d with
  | DVariable t _ | DFixedArray t _ _ | DOption t _ => Some t
  | _ => None
  end.

(** A type ranks above the types that its declarations hold in place, except
    for a field of a struct that names the struct itself.  The ranks are those
    of the Rust names. *)
Definition flat (ds : list definition) : Prop :=
  exists rank : string -> nat, forall x td d y x' y',
    In (x, td) (type_defs ds) -> In d (parts td) -> embeds d = Some (TsIdent y) -> camel_of x x' -> camel_of y y' ->
    (exists n l, td = TdStruct n l /\ y = x) \/ (rank y' < rank x')%nat.

(** the types that a declaration holds in place when typedefs are followed *)
Inductive by_value (ds : list definition) : decl -> string -> Prop :=
| bv_item d x : embeds d = Some (TsIdent x) -> (forall d', ~ first x (type_defs ds) (TdDecl d')) -> by_value ds d x
| bv_typedef d x d' y : embeds d = Some (TsIdent x) -> first x (type_defs ds) (TdDecl d') -> by_value ds d' y -> by_value ds d y.

(** [x] holds [y] in place: in a field that does not name the struct itself, in
    the default arm of a union, in a case of a union that is not over [bool], or
    in the first case for FALSE or for TRUE of a union over [bool] *)
Definition contains (ds : list definition) (x y : string) : Prop :=
  (exists n l d, In (x, TdStruct n l) (type_defs ds) /\ In d l /\ embeds d <> Some (TsIdent x) /\ by_value ds d y) \/
  (exists n c specs d, In (x, TdUnion n (UBody c specs (Some d))) (type_defs ds) /\ by_value ds d y) \/
  (exists n t w specs dflt d v vs, In (x, TdUnion n (UBody (DVariable t w) specs dflt)) (type_defs ds) /\ t <> TsBool /\
     In (CaseSpec (v :: vs) d) specs /\ by_value ds d y) \/
  (exists n w a b dflt s vs d, In (x, TdUnion n (UBody (DVariable TsBool w) (a ++ CaseSpec vs d :: b)%list dflt)) (type_defs ds) /\
     In s ["FALSE"; "TRUE"]%string /\ In (VIdent s) vs /\ (forall vs' d', In (CaseSpec vs' d') a -> ~ In (VIdent s) vs') /\ by_value ds d y).

(** a chain of types of which each one holds the next *)
Inductive contains_chain (ds : list definition) : string -> string -> Prop :=
| cc_one x y : contains ds x y -> contains_chain ds x y
| cc_more x y z : contains ds x y -> contains_chain ds y z -> contains_chain ds x z.
