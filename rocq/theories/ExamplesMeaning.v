(** Concrete cases for the meaning of Rust items. *)
From Verif Require Import Base SpecUtf8 RustTypes SpecTypes Nom Ast ParserModel SpecGrammar SpecParse CaseModel SpecCase RustAst GenModel SpecGen GenFacts SpecXdl GenSem SpecWire
  WireLemmas ExamplesGen ExamplesWire RustText SpecRust SpecSyntax MainModel SpecMain MainProofs ExamplesText SpecMeaning SpecRun MeaningLemmas.
Local Open Scope string_scope.
Local Open Scope list_scope.

(** Rust text that is not the output of rpcgen *)
Definition hand_text : text := chars "use serde::{Serialize, Deserialize}; use serde::ser::SerializeTuple;
 use serde_xdr::{XdrIndexer, XdrUnion}; use serde_xdr_derive::{XdrIndexer, XdrUnion};
 pub const K: u64 = 3u64; pub const L: u64 = K;
 #[derive(Serialize, Deserialize)] pub enum E { A, B }
 impl AsRef<i32> for E { fn as_ref(&self) -> &'static i32 { match self { E::A => &-1i32, E::B => &7i32, } } }
 impl TryFrom<i32> for E { type Error = serde_xdr::error::Error; fn try_from(v: i32) -> Result<Self, Self::Error>
   { match v { 7i32 => Ok(E::B), -1i32 => Ok(E::A), _ => Ok(E::A), } } }
 #[derive(Deserialize, Serialize)] pub struct P { pub x: [i32; L as usize], pub next: Option<Box<P> >,
   #[serde(with = ""serde_xdr::primitive::signed32"")] pub e: E }
 #[derive(XdrIndexer)] pub enum I { A, B(i32) }
 impl XdrIndexer for I { type Error = serde_xdr::error::Error;
   fn name_by_index(v: i32) -> Result<&'static str, Self::Error>
     { match v { 1i32 => Ok(stringify!(A)), 2i32 => Ok(stringify!(B)), _ => Err(serde_xdr::error::Error::Convert) } }
   fn index(&self) -> i32 { match self { I::B(_) => 2i32, _ => unimplemented!() } } }
 #[derive(XdrUnion)] pub enum U { T(bool, P), F(bool) }
 impl XdrUnion<bool> for U { type Error = serde_xdr::error::Error;
   fn name_by_value(v: &bool) -> Result<&'static str, Self::Error>
     { match v { true => Ok(stringify!(T)), false => Ok(stringify!(F)) } } }".
Definition hand_items : list sitem := match read_rust hand_text with Some l => l | None => [] end.
Definition hand_e : ty := TSigned32 [-1; 7]%Z [(7%Z, 1%nat); (-1%Z, 0%nat)] (DVal 0%nat).
Definition hand_i : ty := TIndexer [("A", []); ("B", [TInt true W32])] [("B", 2%Z)] [(1%Z, "A"); (2%Z, "B")] DErr.
Definition hand_u : ty := TUnion [("T", Some [TRef "P"]); ("F", Some [])] TBool [(RBool true, "T"); (RBool false, "F")] DErr.
Lemma hand_meaning : read_rust hand_text = Some hand_items /\ meaning hand_items = Some
  [("E", TEnum [("A", VUnit); ("B", VUnit)]);
   ("P", TStruct [("x", TArray 3 (TInt true W32)); ("next", TOption (TBox (TRef "P"))); ("e", hand_e)]);
   ("I", hand_i); ("U", hand_u)].
Proof. split; vm_compute; reflexivity. Qed.
Lemma hand_signed32 : signed32 hand_items "E" = Some hand_e.
Proof. vm_compute. reflexivity. Qed.
Lemma hand_indexer : exists svs, indexer hand_items "I" svs = Some hand_i.
Proof. exists [SVariant [] "A" None None; SVariant [] "B" (Some [SyPath (Path false ["i32"]) []]) None]. vm_compute. reflexivity. Qed.
Lemma hand_union : exists svs, union hand_items "U" svs = Some hand_u /\ dyn_of hand_items TBool (RBool true) = Some (DyBool true).
Proof.
  exists [SVariant [] "T" (Some [SyPath (Path false ["bool"]) []; SyPath (Path false ["P"]) []]) None; SVariant [] "F" (Some [SyPath (Path false ["bool"]) []]) None].
  split; vm_compute; reflexivity.
Qed.

(** without the imports the derive macros have no meaning *)
Definition no_import_text : text := chars "#[derive(Serialize, Deserialize)] pub struct P { pub x: i32 }".
Lemma no_import : exists items, read_rust no_import_text = Some items /\ meaning items = None /\
  meaning (SiUse ["serde"] ["Serialize"; "Deserialize"] :: items) = Some [("P", TStruct [("x", TInt true W32)])].
Proof. eexists. split; [vm_compute; reflexivity|]. split; vm_compute; reflexivity. Qed.

Lemma shapes_speaks : exists bs, valid_utf8 bs /\ denotes_text shapes (text_of bs) /\
  forall fl checks, definitions_ok (main_config fl checks) shapes /\ xtype shapes (use_union fl) (TsIdent "shape") shape_value.
Proof.
  destruct shapes_program as (bs & V & D & W). exists bs. split; [exact V|]. split; [exact D|]. intros fl checks. split; [apply W|apply shapes_value].
Qed.
Lemma shapes_defined : forall fl checks, exists f E, greturns (fun n => rpcgen n fl checks shapes_text) (GOk f) /\ file_env f = Some E /\ compiles f.
Proof.
  intros fl checks. destruct (@c56 fl checks _ _ shapes_parses (shapes_ok fl checks)) as (f & E & [G FE] & CO & _). exists f, E. split; [|easy].
  apply (@rpcgen_result fl checks shapes_text shapes); [|exact G]. destruct (greturns_run shapes_parses) as (n & R & _). exact (ParseSound.parse_sound R).
Qed.
