(** Specification vocabulary for what the generator emits. *)
From Verif Require Import Base Nom Ast SpecGrammar SpecParse SpecCase SpecGen RustAst.
Local Open Scope string_scope.

(** [y] is [x] in upper camel case: without underscores only the first letter
    changes; otherwise the parts between underscores are titled and joined *)
Definition camelled (x y : text) : Prop :=
  (~ In underscore x /\ y = first_big x) \/
  (exists ps, (2 <= length ps)%nat /\ Forall (fun p => ~ In underscore p) ps /\
     x = join ps /\ y = concat (map titled ps)).
Definition camel_of (x y : string) : Prop := camelled (chars x) (chars y).

(** ** C53: constants *)
(** [const x = v] is emitted as [c] *)
Definition const_item_for (d : string * value) (c : const_item) : Prop :=
  co_name c = fst d /\
  match snd d with
  | VConst k =>
      exists z, stands_for k z /\ co_value c = TokNum z /\
        (co_wide c = false /\ 0 <= z < 2 ^ 32 \/ co_wide c = true /\ 2 ^ 32 <= z < 2 ^ 64)
  | VIdent y => co_value c = TokId y /\ co_wide c = false
  end.

(** ** C55: items *)
Definition item_for (d : string * typedef) (i : type_item) : Prop :=
  match snd d, i with
  | TdDecl _, IAlias y _ => camel_of (fst d) y
  | TdEnum _ _, IEnum e => camel_of (fst d) (en_name e)
  | TdStruct _ _, IStruct s => camel_of (fst d) (st_name s)
  | TdUnion _ _, IUnion u => camel_of (fst d) (un_name u)
  | _, _ => False
  end.
Definition is_typedef (t : typedef) : bool := match t with TdDecl _ => true | _ => false end.
(** the definitions that become an item *)
Definition item_defs (removal : bool) (ds : list definition) : list (string * typedef) :=
  filter (fun d => negb (removal && is_typedef (snd d))) (type_defs ds).

(** ** C58: fields *)
(** [x] is the name of a field of a struct of the file *)
Definition field_of (ds : list definition) (x : string) : Prop :=
  exists s y l d, In (s, TdStruct y l) (type_defs ds) /\ In d l /\ declared d = Some x.
Definition has_capital (x : string) : Prop := exists c, In c (chars x) /\ In c capitals.
Definition emitted_field (f : file) (i : rident) : Prop :=
  exists s fd, In (IStruct s) (fi_types f) /\ In fd (st_fields s) /\ fd_name fd = i.
