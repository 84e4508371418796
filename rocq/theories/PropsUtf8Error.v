(** Property theorems about the position in Encoding errors (C123). *)
From Verif Require Import Base SpecUtf8 SerModel RustTypes DeModel SpecXdr SpecTypes Utf8Error Utf8ErrorProofs ExamplesCodec.
Local Open Scope list_scope.

(** ** C123 an Encoding error says where the text stops to be UTF-8, and whether it was cut off *)
Theorem C123_position : forall E n s r, unsigned 4 (zlen s) n -> ~ valid_utf8 s ->
  returns (fun k => from_bytes k E TStr (n ++ s ++ r)) (Err EEncoding) /\
  exists p q l, string_error (n ++ s ++ r) = Some (zlen p, l) /\ s = p ++ q /\ valid_utf8 p /\
    (forall a b, q = a ++ b -> a <> [] -> ~ valid_utf8 (p ++ a)) /\
    (l = None <-> exists x, valid_utf8 (s ++ x)) /\
    (forall j, l = Some j -> 1 <= j <= 3 /\ j <= zlen q).
Proof. exact encoding_detail. Qed.
Print Assumptions C123_position.
Theorem C123_when : forall i, read_string i = Err EEncoding <-> string_error i <> None.
Proof. exact string_error_read. Qed.
Print Assumptions C123_when.
Example C123_case : unsigned 4 (zlen [xed; xa0; x80]) [x00; x00; x00; x03] /\ ~ valid_utf8 [xed; xa0; x80] /\
  string_error [x00; x00; x00; x03; xed; xa0; x80; x00] = Some (0, Some 1) /\
  string_error [x00; x00; x00; x03; x61; xf0; x9f; x00] = Some (1, None).
Proof. split; [now split|]. split; [exact (proj2 utf8_cases)|]. now split. Qed.
