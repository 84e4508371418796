(** Specification vocabulary: types all of whose values take the same number of
    bytes (RFC 4506, section 4), and types that contain themselves. *)
From Verif Require Import Base Nom Ast SpecGrammar SpecParse SpecGen RustAst GenModel SpecXdl.
Local Open Scope string_scope.

(** [arms] says whether unions whose arms all have one size are included *)
Inductive fixed (arms : bool) (ds : list definition) : tyspec -> Z -> Prop :=
| fx_int s : fixed arms ds (TsInt s) 4
| fx_hyper s : fixed arms ds (TsHyper s) 8
| fx_float : fixed arms ds TsFloat 4
| fx_double : fixed arms ds TsDouble 8
| fx_bool : fixed arms ds TsBool 4
| fx_char s : fixed arms ds (TsChar s) 4
| fx_short s : fixed arms ds (TsShort s) 4
| fx_enum x y l : first x (type_defs ds) (TdEnum y l) -> fixed arms ds (TsIdent x) 4
| fx_struct x y l k : first x (type_defs ds) (TdStruct y l) -> fixed_all arms ds l k ->
    fixed arms ds (TsIdent x) k
| fx_typedef x d k : first x (type_defs ds) (TdDecl d) -> fixed_decl arms ds d k ->
    fixed arms ds (TsIdent x) k
| fx_union x y c specs dflt k : arms = true -> first x (type_defs ds) (TdUnion y (UBody c specs dflt)) ->
    (forall vs d, In (CaseSpec vs d) specs -> fixed_decl arms ds d k) ->
    (forall d, dflt = Some d -> fixed_decl arms ds d k) ->
    fixed arms ds (TsIdent x) (4 + k)
with fixed_decl (arms : bool) (ds : list definition) : decl -> Z -> Prop :=
| fd_variable t y k : fixed arms ds t k -> fixed_decl arms ds (DVariable t y) k
| fd_array t y v z k : fixed arms ds t k -> value_is ds v z -> fixed_decl arms ds (DFixedArray t y v) (z * k)
| fd_opaque y v z k : value_is ds v z -> z <= k < z + 4 -> k mod 4 = 0 -> fixed_decl arms ds (DOpaqueFixed y v) k
| fd_void : arms = true -> fixed_decl arms ds DVoid 0
with fixed_all (arms : bool) (ds : list definition) : list decl -> Z -> Prop :=
| fa_nil : fixed_all arms ds [] 0
| fa_cons d l k m : fixed_decl arms ds d k -> fixed_all arms ds l m -> fixed_all arms ds (d :: l) (k + m).

Scheme fixed_mind := Minimality for fixed Sort Prop
  with fixed_decl_mind := Minimality for fixed_decl Sort Prop
  with fixed_all_mind := Minimality for fixed_all Sort Prop.
Combined Scheme fixed_ind3 from fixed_mind, fixed_decl_mind, fixed_all_mind.
