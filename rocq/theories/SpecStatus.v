(** Specification vocabulary for C119: files that contain definitions. *)
From Verif Require Import Base SpecUtf8 Nom Ast SpecGrammar MainModel.

(** the contents are UTF-8 and these definitions, by the grammar *)
Definition protocol_file (contents : option (list byte)) (ds : list definition) : Prop :=
  exists bs, contents = Some bs /\ valid_utf8 bs /\ denotes_text ds (text_of bs).
