# Formal model of xdr-rs in Coq 8.16.1: design

## 1. What is modelled

All four kinds of code in /repo are modelled, function by function: the codec
(`serde-xdr`), its derive macros (`serde-xdr-derive`), the parser and the generator of
`rpcgen`. Every Gallina definition that stands for code cites file and lines of /repo.
`serde-xdr-test` contains only tests.

| Files (rocq/theories) | Content | Kind |
| --- | --- | --- |
| `Base` | machine integers, casts, big-endian bytes, results `Ok/Err/Panic/Fuel/Stuck` | model |
| `Utf8` | `str::from_utf8`, `char::from_u32` of std | model |
| `SerModel` | `serde-xdr/src/ser.rs` over trees of serde calls | model |
| `RustTypes` | universe of Rust types and values; what their `Serialize` impls call (std and derive of serde, `opaque.rs`, `primitive.rs`, `serde-xdr-derive`) | model |
| `DeModel` | `serde-xdr/src/de.rs`, `opaque.rs`, `primitive.rs`, derive macros (reading) | model |
| `DeriveModel` | `serde-xdr-derive/src/lib.rs`: the code that the macros expand to for an enum, and running this code | model |
| `SpecUtf8`, `SpecXdr`, `SpecTypes`, `SpecDecode`, `SpecMisc` | UTF-8, RFC 4506 section 4, which values denote which XDR data, decoding notions | specification |
| `XdrFacts`, `EncProofs`, `ReadFacts`, `RvalFacts`, `DecProofs`, `CodecProofs`, `TotalProofs`, `NormProofs`, `Utf8Proofs`, `CodecLemmas`, `StreamProofs`, `DeriveProofs`, `DeriveLemmas` | codec proofs; the expanded code does what `RustTypes` and `DeModel` say | proofs |
| `ExamplesCodec`, `PropsCodec`, `ExamplesStream`, `PropsStream`, `ExamplesDerive`, `PropsDerive` | cases and theorems C01-C30, C59, C84-C87 | theorems |
| `VisitModel`, `VisitTypes` | `impl de::Deserializer` for an arbitrary `Deserialize` impl (a tree of requests); the impls of the types of `RustTypes` as such trees | model |
| `SpecVisit` | impls that do not panic; the stream of values that a `Serialize` impl says and how an impl hears it | spec |
| `CatchModel`, `SpecCatch` | the same for impls that look at every `Result` they get, with the read position after an error; kinds of such impls | model, spec |
| `CatchProofs`, `ExamplesCatch`, `PropsCatch` | proofs, cases and theorems C100 | proofs, theorems |
| `VisitProofs`, `VisitAgree`, `VisitLoop`, `ExamplesVisit`, `PropsVisit` | proofs (`DeModel` is an instance of `VisitModel`), cases and theorems C91-C94 | proofs, theorems |
| `SpecWork` | amount of dynamically sized data of a value, types inside a type (C95, C96) | specification |
| `WorkProofs`, `DepthProofs`, `ExamplesWork`, `PropsWork` | proofs, cases and theorems C95, C96 | proofs, theorems |
| `AllocModel` | heap requests while decoding: serde's preallocation, growth of `Vec`, boxes, copies (C107) | model |
| `SpecAlloc` | types whose decoding requests a bounded amount of memory (C107) | specification |
| `AllocProofs`, `AllocGen`, `ExamplesAlloc`, `PropsAlloc` | proofs, cases and theorems C107 | proofs, theorems |
| `SpecFrame` | a program that reads messages from a stream (C108) | specification |
| `FrameProofs`, `ExamplesFrame`, `PropsFrame` | proofs, cases and theorems C108 | proofs, theorems |
| `CostModel` | calls of nom's matchers by the parser, parser.rs:18-24, 435-828 | model |
| `SpecCost` | nested structures, files without nesting (C109) | specification |
| `CostProofs`, `CostLower`, `CostUpper`, `ExamplesCost`, `PropsCost` | proofs, cases and theorems C109 | proofs, theorems |
| `LookupModel` | names looked up by the generator, gen_code.rs:55-103, 203-242, 430-453 | model |
| `SpecLookup` | names defined and used, chains of names defined twice (C110) | specification |
| `LookupProofs`, `ExamplesLookup`, `PropsLookup` | proofs, cases and theorems C110 | proofs, theorems |
| `SpecCodeSize` | parts of definitions and of generated code (C111) | specification |
| `SizeProofs`, `ExamplesSize`, `PropsSize` | proofs, cases and theorems C111 | proofs, theorems |
| `SpecAlike` | values of different Rust types that stand for the same XDR data (C112, C113) | specification |
| `AlikeProofs`, `ExamplesAlike`, `PropsAlike` | proofs, cases and theorems C112, C113 | proofs, theorems |
| `SpecPanic` | the inputs on which a type panics (C09) | specification |
| `PanicProofs`, `ExamplesPanic`, `PropsPanic` | proof, cases and theorem of the exact panics | proofs, theorems |
| `FieldNames`, `ExamplesNames`, `PropsNames` | exactly the fields with unusable names (C58) | proofs, theorem |
| `SpecError` | the errors of inputs (C114) | specification |
| `ErrorProofs`, `ErrorGen`, `ExamplesError`, `PropsError` | proof, cases and theorems of the exact errors | proofs, theorems |
| `SpecTranslate` | the interface files that can be translated (C115) | specification |
| `TranslateProofs`, `TranslateGen`, `TranslateUnion`, `ExamplesTranslate`, `PropsTranslate` | proof, cases and theorems of exactly which files are translated | proofs, theorems |
| `OptionsProofs`, `ExamplesOptions`, `PropsOptions` | flags, overflow checks and whether a file is translated (C116) | proofs, theorems |
| `SpecToolPanic` | the interface files on which the generator panics (C117) | specification |
| `ToolPanicProofs`, `ToolPanicUnion`, `ExamplesToolPanic`, `PropsToolPanic` | exactly these files make it panic (C117) | proofs, theorems |
| `SpecToolError` | the interface files for which the generator returns an error, and which (C118) | specification |
| `ToolErrorProofs`, `ExamplesToolError`, `PropsToolError` | exactly these files give these errors; on exactly the remaining ones it never returns (C118) | proofs, theorems |
| `SpecStatus`, `StatusProofs`, `ExamplesStatus`, `PropsStatus` | the exit status of rpcgen from the contents of the file (C119) | specification, proofs, theorems |
| `WrapProofs`, `PropsWrap` | exactly when C18, C36 and C37 hold | proofs, theorems |
| `ManyProofs`, `ExamplesMany`, `PropsMany` | exactly which variants C24 and C25 hold for | proofs, theorems |
| `DisplayModel` | the texts of errors: serde-xdr/src/error.rs, rpcgen/src/error.rs, the standard error of main.rs | model |
| `SpecDisplay`, `DisplayProofs`, `ComplainProofs`, `ExamplesDisplay`, `PropsDisplay` | the texts of errors (C120 - C122) | specification, proofs, theorems |
| `Utf8Error` | the details of Encoding errors | model |
| `SpecWords`, `WordsProofs`, `PropsWords` | exactly when an item is named by a keyword (C69, C70) | specification, proofs, theorems |
| `GapProofs`, `GapNames`, `PropsGap` | gaps between enum members and between case labels are filled, also if numbers are given by names (C111) | proofs, theorems |
| `Utf8ErrorProofs`, `PropsUtf8Error` | the details of Encoding errors (C123) | proofs, theorems |
| `SpecNest` | definitions that are not made of themselves or do not hold themselves in place (C96, C71) | specification |
| `NestProofs`, `ExamplesNest`, `PropsNest` | generated types of bounded depth and of finite size (C96, C71) | proofs, theorems |
| `ExamplesRepo` | the 80 unit tests of serde-xdr and serde-xdr-test replayed on the model | checks |
| `Ast`, `Nom`, `Keyword`, `ParserModel` | syntax tree, the nom combinators used, `keyword.rs`, `parser.rs` | model |
| `SpecGrammar`, `SpecParse`, `SpecPrint` | the accepted language as inductive relations, standard texts; well-formedness; value of constants | specification |
| `NomFacts`, `ParseSound`, `ParseTotal`, `ParseComplete`, `ConstProofs`, `ParserLemmas`, `PrintProofs` | parser proofs | proofs |
| `ExamplesParser`, `PropsParser`, `ExamplesPrint`, `PropsPrint` | cases and theorems C31-C39, C60-C62, C79, C80 | theorems |
| `CaseModel`, `RustAst`, `GenModel` | case conversion, the emitted items, `gen_code.rs` and the flag logic of `main.rs` | model |
| `GenSem` | which types of `RustTypes` the emitted items are, and conditions under which they compile | model of rustc and serde derive, see below |
| `DefaultModel` | the `Default` impls of generated types: derived for structs, written out for enums and unions | model |
| `SpecCase`, `SpecGen`, `SpecItems`, `SpecXdl`, `SpecWire`, `SpecEmit`, `SpecConv`, `SpecSize`, `SpecReject`, `SpecDefault`, `SpecCircle`, `SpecUpgrade`, `SpecAppend`, `SpecRead` | names, resolution, items, XDR values of definitions and the supported subset, wire notions, emission notions, exact definitions, fixed sizes, reasons for which rustc rejects a file, default discriminants, circles of names, later versions of a file, appended definitions, accepted inputs | specification |
| `CaseProofs`, `GenFacts`, `GenTotal`, `GenPanic`, `GenLemmas`, `Wire*`, `Emit*`, `Default*`, `MaxDefs`, `ConvLemmas`, `UnionSize`, `CircleProofs`, `UpgradeProofs`, `AppendProofs`, `MisreadProofs`, `ReadProofs`, `ReadModes`, `StuckProofs` | generator proofs | proofs |
| `ExamplesGen`, `PropsGen`, `ExamplesWire`, `PropsWire`, `ExamplesEmit`, `PropsEmit`, `ExamplesConv`, `PropsConv`, `ExamplesRun`, `PropsRun`, `ExamplesReject`, `PropsReject`, `ExamplesDefault`, `PropsDefault` | cases and theorems C40-C58, C63 and later | theorems |
| `RustText`, `MainModel` | the `quote!` templates of `gen_code.rs` and `TokenStream::to_string`; `main.rs` from file contents to output and exit status | model |
| `SpecRust`, `SpecSyntax`, `SpecMain` | Rust's lexical rules and item syntax as far as generated; the items that a generated file should read as; how a run ends | specification |
| `TextLex`, `TextParse`, `TextItems`, `TextGen`, `TextFile`, `TextLegible`, `MainProofs`, `ExamplesText`, `PropsText` | proofs, cases and theorems C97, C98 | proofs, theorems |
| `SpecMeaning`, `SpecRun` | the types that Rust items define, from their syntax alone; running a function that is a match | specification |
| `MeaningProofs`, `MeaningLemmas`, `RunProofs`, `ExamplesMeaning`, `PropsMeaning` | proofs, cases and theorems C99 | proofs, theorems |

A `Props*.v` file contains nothing but theorems closed by `exact`, `Print Assumptions`
beneath each, and an `Example` that shows a concrete case meeting the hypotheses.

### Conventions

* Bytes are `Coq.Init.Byte.byte`, so "every input" is every byte string.
* Integers are `Z`; each Rust cast (`as i8`, `as u32`, `try_into`) is explicit. `usize` is
  64 bits.
* `&mut self` becomes state passing; a Rust panic is the value `Panic`, distinct from every
  `Err`; running out of the recursion bound is `Fuel`, distinct from both. `returns f r`
  (`greturns` for rpcgen) says that `f n = r`, not `Fuel`, for all large enough bounds.
  `diverges f` says that every bound is exhausted: in reality an infinite loop or a stack
  overflow.
* A Rust type with its Serialize and Deserialize impls is a `ty`; recursive types go
  through named references and an environment. A value is an `rval`. Serializing is two
  steps as in serde: the impl turns a value into serde calls (`sval`), `ser.rs` turns calls
  into bytes. Theorems about the encoder quantify over all call trees, i.e. over all
  Serialize impls. C91-C94 quantify over all Deserialize impls in the same way.
* f32 and f64 are their bit patterns.
* Text (rpcgen) is a list of 8-bit characters, the UTF-8 bytes of the Rust `&str`; all
  patterns used by the parser are ASCII, so matching bytes and matching chars agree.
* Whether rpcgen itself is built with overflow checks is a parameter of the model.

### Simplifications

* Maps are lists of entries in insertion order; equality of keys is equality of values.
* Allocation is modelled by separate meters (C20, C107) that run beside the decoder;
  tables of maps and texts of errors are not counted.
* `TokenStream`s are the syntax trees of `RustAst.v`, which keep everything that varies;
  the fixed text around them is in `RustText.v` (what is printed) and `GenSem.v` (what it
  means). C99 connects the two: what is printed, read as Rust and given a meaning by
  `SpecMeaning.v`, defines the types of `GenSem.v`.
* `RustText.v`: in the union mode, a union without any case and with a default arm would be
  printed with a stray comma, which the model leaves out; the grammar has no such union.
* `GenSem.v` stands for rustc and `serde_derive` on generated code. It gives a type to an
  item only when the item is well typed as far as the model can tell, so claims about
  generated code are claims about files it accepts. `compiles` adds conditions on names,
  finite size and constants. Neither rustc nor serde_derive is modelled beyond that.
* proc_macro2's `Ident::new` is modelled by its documented panics.

### Not modelled

Allocation failure and stack size, the `Display` texts that libraries give to their own
errors (those of the project's errors are modelled in `DisplayModel`, with the Unicode tables of
printable characters as a parameter), types whose impls consult `is_human_readable`, clap's argument parsing
(the flag logic after it is modelled), the path, the panic messages on standard error and a
failing standard output in `main.rs`, `i128`/`u128` (serde's default methods, which only fail with a custom error), serde attributes other than
those that rpcgen emits.

## 2. Properties

Per property: how it is expressed and proved, the status, the theorems. The note for each
partial one is in MANIFEST.json. A property that is false of the code has a `_refuted`
theorem with a concrete witness, and a `_partial` theorem for what holds instead.

| Id | Property | How | Status | Theorems |
| --- | --- | --- | --- | --- |
| C01 | encode/decode round trip | model of encoder and decoder over the universe of Rust types; induction on the denotation relation of SpecTypes.v, `deser (enc v ++ rest) = Ok (v, rest)` | proved | `C01_round_trip` |
| C02 | RFC 4506 conformance of the encoder | relation `rfc` (SpecXdr.v) written from RFC 4506, sharing no byte function with the model; induction | proved | `C02_rfc_conformance` |
| C03 | output is a whole number of XDR units | induction over all serde call trees | proved | `C03_whole_units` |
| C04 | encoding is injective | from C01 | proved | `C04_injective` |
| C05 | self-delimiting encodings | from C01 and locality | proved | `C05_prefix_free`, `C05_consumes_its_encoding`, `C05_concatenation` |
| C06 | trailing data is rejected | from C01 | proved | `C06_trailing_data` |
| C07 | truncated encodings are never accepted | from C05 and C10 | proved | `C07_truncated` |
| C08 | only whole XDR units are accepted | induction over the decoder on arbitrary input | proved | `C08_accepts_whole_units` |
| C09 | decoder never panics | witness, induction over the decoder with the length invariant; an inductive description of the panicking inputs (`SpecPanic`), both directions by induction (`PanicProofs`) | partial | `C09_panic_refuted`, `C09_no_panic_partial`, `C09_panic_exact` |
| C10 | decoding is local | induction over the decoder: what is not consumed does not matter | proved | `C10_local` |
| C11 | narrow integers keep the low-order bits | all words, by the two's-complement lemmas of Base.v | proved | `C11_narrow_integers` |
| C12 | booleans and optional data: zero/non-zero discriminants | all words | proved | `C12_bool`, `C12_none`, `C12_some`, `C12_written` |
| C13 | accepted input is normalised by re-encoding | induction over the decoder, relating its result to the denotation relation | proved | `C13_normalise` |
| C14 | strings are exactly the valid UTF-8 byte strings | model of `str::from_utf8` proved equivalent to 'concatenation of encodings of scalar values' (SpecUtf8.v) | proved | `C14_utf8`, `C14_invalid` |
| C15 | chars are exactly the Unicode scalar values | all words | proved | `C15_char` |
| C16 | unknown enum discriminants are rejected | all words | proved | `C16_negative`, `C16_unknown`, `C16_selected`, `C16_unit` |
| C17 | exact failure conditions of the encoder | fault relation on call trees; induction both ways | proved | `C17_faults` |
| C18 | length prefixes are never silently truncated | witness lengths at 2^32; all lengths below | partial | `C18_bytes_refuted`, `C18_seq_refuted`, `C18_prefix_partial`, `C18_wraps_partial`, `C18_exact_partial`, `C18_read_partial` |
| C19 | opaque helpers produce XDR opaque data | loops of opaque.rs proved equal to the RFC's padding | proved | `C19_variable`, `C19_fixed`, `C19_read_variable`, `C19_read_fixed` |
| C20 | decoder memory is bounded by the input | allocation requests made explicit beside the model of `enumerate_u8`; witness and bound | partial | `C20_memory_refuted`, `C20_text_and_bytes_partial` |
| C21 | element counts are bounded by the input | invariant of the element loop | proved | `C21_seq`, `C21_promise`, `C21_map` |
| C22 | maps: last duplicate wins, distinct keys round trip | fold of insertions | proved | `C22_last_wins` |
| C23 | signed32 helper | case tables | proved | `C23_write`, `C23_read`, `C23_inverse` |
| C24 | derive(XdrIndexer) round trips | case tables; witness with ten fields | partial | `C24_many_fields_refuted`, `C24_indexer_partial`, `C24_derived_partial`, `C24_many_fields`, `C24_exact_partial`, `C24_read_partial` |
| C25 | derive(XdrUnion) round trips | case tables; witness with ten fields | partial | `C25_many_fields_refuted`, `C25_union_partial`, `C25_derived_partial`, `C25_many_fields`, `C25_unit_variant`, `C25_unit_variant_refuted`, `C25_exact_partial`, `C25_read_partial` |
| C26 | structure is transparent | equations between encoders and decoders | proved | `C26_newtype`, `C26_box`, `C26_unit`, `C26_tuple`, `C26_tuple_struct`, `C26_struct`, `C26_array`, `C26_variant` |
| C27 | floats are bit exact | bit patterns | proved | `C27_f32`, `C27_f64` |
| C28 | decoding terminates | measure linear in the input for guarded environments | proved | `C28_terminates` |
| C29 | serialization only appends | induction over call trees with arbitrary prior output | proved | `C29_appends` |
| C30 | padding content is ignored | equations of the readers | proved | `C30_padding`, `C30_padding_fixed` |
| C31 | parser accepts the XDR/RPCL grammar | grammar relation (SpecGrammar.v), completeness of the parser model | proved | `C31_accepts_grammar` |
| C32 | parser accepts nothing else | soundness of the parser model | proved | `C32_accepts_only_grammar` |
| C33 | parse terminates and reports one kind of error | fuel equal to the text's length suffices | proved | `C33_terminates`, `C33_one_result` |
| C34 | parsed definitions are well-formed | induction over the grammar | proved | `C34_well_formed` |
| C35 | files without definitions are accepted | witness and classification | partial | `C35_blank_refuted`, `C35_empty_partial`, `C35_blank_rejected` |
| C36 | any identifier can be used as a type name | witness and positive part | partial | `C36_type_name_refuted`, `C36_type_name_partial`, `C36_exact_partial` |
| C37 | built-in types are accepted next to punctuation | witness and positive part | partial | `C37_punctuation_refuted`, `C37_spaced_partial`, `C37_exact_partial` |
| C38 | numeric constants denote their value | positional value of digit strings (SpecParse.v) | proved | `C38_value`, `C38_in_text` |
| C39 | layout is irrelevant | grammar is closed under layout changes | proved | `C39_layout`, `C39_padding` |
| C40 | name resolution: constants first, first definition wins | relation `value_is`/`first` (SpecGen.v) | partial | `C40_first_constant_refuted`, `C40_value_partial`, `C40_only_that_value_partial`, `C40_unknown_name`, `C40_exact_partial` |
| C41 | generation terminates | witness loops; well-founded names terminate | partial | `C41_circular_values`, `C41_circular_types`, `C41_terminates_refuted`, `C41_typedefs_refuted`, `C41_terminates_partial`, `C41_one_result` |
| C42 | generation never panics | eight witness kinds; induction over the generator excluding them | partial | `C42_never_panics_refuted`, `C42_never_panics_partial` |
| C43 | default mode: enum members get their XDR value on the wire | generated enum as a type (GenSem.v) and the codec theorems | partial | `C43_members_refuted`, `C43_members_partial` |
| C44 | std-trait mode: AsRef/TryFrom are inverse | same | proved | `C44_traits` |
| C45 | indexer mode: enum values | same | partial | `C45_indexer_refuted`, `C45_indexer_partial`, `C45_unknown_words` |
| C46 | default mode: union arms get their XDR discriminant | generated union as a type and the codec theorems | partial | `C46_arms_refuted`, `C46_arms_partial` |
| C47 | indexer mode: unions | same | partial | `C47_indexer_refuted`, `C47_indexer_partial` |
| C48 | union mode: unions | same | partial | `C48_union_refuted`, `C48_union_partial` |
| C49 | struct layout | same, for structs | partial | `C49_struct_refuted`, `C49_struct_partial` |
| C50 | typedefs are expanded faithfully | same, for typedef chains | partial | `C50_typedef_refuted`, `C50_typedef_partial` |
| C51 | upper camel case conversion | relation `camel` (SpecCase.v) | proved | `C51_exact`, `C51_idempotent`, `C51_no_underscore`, `C51_same_letters`, `C51_no_small_start` |
| C52 | snake case conversion | relation `snaked` (SpecCase.v) | proved | `C52_exact`, `C52_idempotent`, `C52_no_capital`, `C52_identity`, `C52_same_letters` |
| C53 | constants are emitted with their value | induction over the constants | partial | `C53_constant_refuted`, `C53_constants_partial`, `C53_out_of_range` |
| C54 | command line flags select consistent modes | all 16 flag sets | proved | `C54_flags` |
| C55 | one item per definition, in order | induction over the definitions | proved | `C55_items` |
| C56 | end to end: generated code speaks the XDR protocol it was generated from | parser, generator, meaning of the generated file and codec composed | proved | `C56_end_to_end` |
| C57 | distinct XDR names give distinct Rust names | witnesses and injective classes | partial | `C57_distinct_refuted`, `C57_screaming_partial`, `C57_one_word_partial`, `C57_fields_partial`, `C57_letters_partial` |
| C58 | field names are usable in Rust | witness and partial class | partial | `C58_field_names_refuted`, `C58_field_names_partial`, `C58_field_names_exact` |
| C59 | decoding whole XDR units never panics | length invariant | proved | `C59_no_panic_on_units` |
| C60 | concatenated files | grammar concatenation | proved | `C60_concatenation` |
| C61 | several versions in a program | witness and positive part | partial | `C61_versions_refuted`, `C61_versions_partial` |
| C62 | the accepted language is unambiguous | from C31 and C32 | proved | `C62_unambiguous` |
| C63 | declared maximum sizes are enforced | witness; the generator commutes with erasing maxima | partial | `C63_maxima_refuted`, `C63_maxima_partial` |
| C64 | programs and % lines generate nothing | the generator ignores them | proved | `C64_programs` |
| C65 | the order of definitions does not matter | permutation of the context | proved | `C65_order` |
| C66 | a flag changes only the items it is about | comparison of two runs | proved | `C66_flags` |
| C67 | emitted code imports what it uses | inspection of all items of a run | proved | `C67_imports` |
| C68 | Default of generated enums and unions | sorted order of members and labels | proved | `C68_enum_default`, `C68_union_default` |
| C69 | type names are usable in Rust | witness; camel case of no other name is a keyword | partial | `C69_type_names_refuted`, `C69_type_names_partial`, `C69_exact_partial` |
| C70 | constant names are usable in Rust | witness; names are unchanged | partial | `C70_const_names_refuted`, `C70_const_names_partial`, `C70_exact_partial` |
| C71 | generated types have a finite size | witnesses; fields of the struct's own name are boxed; ranks of definitions carry over to the emitted names and, for circles, back (`NestProofs`) | partial | `C71_finite_refuted`, `C71_finite_partial`, `C71_flat_partial`, `C71_circular` |
| C72 | numbers can be case labels | witness; general naming lemma | partial | `C72_numbers_refuted`, `C72_numbers_partial` |
| C73 | default mode: words of no member are rejected | witness; exact set of accepted words | partial | `C73_words_refuted`, `C73_words_partial` |
| C74 | decoding a generated type terminates | witness diverges; C28's measure for generated environments | partial | `C74_terminates_refuted`, `C74_terminates_partial`, `C74_outcome_partial` |
| C75 | decoding whole units as a generated type never panics | generated environments satisfy the premises of C59 | proved | `C75_decode_no_panic` |
| C76 | encoding a value of a generated type never panics | witness; generated indexers cover their variants | partial | `C76_encode_no_panic_refuted`, `C76_encode_no_panic_partial` |
| C77 | programs generated with different flags understand each other | witness; C78 for the first program and C56 for the second | partial | `C77_flags_agree_refuted`, `C77_flags_agree_partial` |
| C78 | a decoded value is a value of the protocol | witness; induction over the decoder, inverting the meaning of the generated file | partial | `C78_decoded_refuted`, `C78_decoded_partial` |
| C79 | parsing undoes printing | standard texts rendered from the grammar; adjacency of pieces; C31 | proved | `C79_print_parse`, `C79_reprint`, `C79_print_injective` |
| C80 | every well-formed definition list can be written | witness; induction over syntax trees in both directions | partial | `C80_writable_refuted`, `C80_writable_partial` |
| C81 | what a generated type decodes it can write back | witness; every generated type keeps what it reads (C13 with weaker assumptions on the discriminant functions), inverting the meaning of the generated file | partial | `C81_normalised_refuted`, `C81_normalised_partial` |
| C82 | a struct that contains itself carries no data | induction on fuel over the derived codecs | proved | `C82_endless` |
| C83 | types of a fixed size consume exactly this size | witness; induction over the sizes, through the types that the generator emits for declarations | partial | `C83_size_refuted`, `C83_size_partial`, `C83_unions_partial` |
| C84 | NotEnoughData gives a lower bound of the missing bytes | one invariant of every reader on inputs that are extended (`steady`), induction on fuel | proved | `C84_missing_bytes` |
| C85 | other errors are final and TrailingData counts the rest | the same invariant; C10 | proved | `C85_final_errors`, `C85_trailing_bytes` |
| C86 | beginnings of accepted inputs are incomplete, not wrong | witness; the same invariant with C10 | partial | `C86_beginnings_refuted`, `C86_beginnings_partial` |
| C87 | the derive macros expand for every enum | witnesses; induction over the variants | partial | `C87_named_fields_refuted`, `C87_no_field_refuted`, `C87_indexer_partial`, `C87_union_partial` |
| C88 | generated code is accepted by the Rust compiler | witness; what the generator emits for each construct; the reasons are inverted against the meaning of the generated file | partial | `C88_accepted_refuted`, `C88_accepted_partial`, `C88_not_rejected`, `C88_named_length`, `C88_long_array`, `C88_member_const`, `C88_enum_container`, `C88_int_union`, `C88_undefined_type`, `C88_number_label` |
| C89 | Default::default() of a generated type returns | witness; rank of finite types, induction over it; induction on fuel for the endless structs | partial | `C89_default_refuted`, `C89_default_partial`, `C89_endless` |
| C90 | a default value can be written and read back | witnesses; every default is a supported value of its type, by the same induction; C01 and C02 for generated types | partial | `C90_unread_refuted`, `C90_changed_refuted`, `C90_unwritten_refuted`, `C90_default_partial` |
| C91 | every Deserialize impl reads locally and in whole units | impls are trees of requests; mutual induction over the tree (`local`); `deser` of every type is an instance (VisitAgree) | proved | `C91_local`, `C91_units`, `C91_types` |
| C92 | whole units make the decoder panic only in the impl itself | the same induction with whole units kept (`safe`) | proved | `C92_calm` |
| C93 | a Deserialize impl gets back what a Serialize impl said | the call tree as a stream of values and the bytes of this stream; mutual induction over the reading impl | proved | `C93_loopback`, `C93_stream` |
| C94 | errors mean the same for every Deserialize impl | the invariant of C84 (`steady`) by mutual induction over the tree | proved | `C94_missing`, `C94_trailing`, `C94_final`, `C94_cut` |
| C95 | the input bounds the decoded data | witness; induction over the bytes a type accepts, with the amount and the bytes of every element; last duplicate of a map key | partial | `C95_inflated_refuted`, `C95_empty_elements`, `C95_bounded_partial` |
| C96 | the type bounds the nesting of calls | the bound n of `deser` counts nested calls (de.rs calls of one `Deserialize` impl from another); witness of any depth; induction on the depth of the type; for generated programs induction on the rank of definitions, with the names in every emitted type traced back to the declarations (`NestProofs`) | partial | `C96_layered_partial`, `C96_deep_refuted`, `C96_shallow_partial` |
| C97 | the printed text reads back as the generated items | every template of gen_code.rs as a list of printed tokens (`RustText`); an independent Rust lexer and item reader (`SpecRust`); the printed text lexes to the tokens of the templates, each template reads as its item, `compiles` gives the condition on names; witnesses outside the subset | proved | `C97_text_is_rust`, `C97_accepted_text`, `C97_text_lexes`, `C97_condition_needed` |
| C98 | rpcgen prints all of the code or nothing | main.rs from file contents to output and status (`MainModel`); C31-C33, C41, C97 | proved | `C98_all_or_nothing`, `C98_success`, `C98_accepted`, `C98_unreadable`, `C98_not_utf8`, `C98_not_protocol`, `C98_failures`, `C98_one_result`, `C98_ends`, `C98_ends_needed` |
| C99 | the types that the printed text defines speak the protocol | a meaning of Rust items (`SpecMeaning`) computed from the text that C97 reads back, equal to the meaning that C56 uses (`MeaningProofs`, `MeaningLemmas`); tables against running the match bodies (`SpecRun`, `RunProofs`) | proved | `C99_program_speaks`, `C99_text_meaning`, `C99_signed32_functions`, `C99_indexer_functions`, `C99_union_functions` |
| C100 | an impl that catches an error stays in step with the input | impls that see every `Result`, run with the position kept after an error (`CatchModel`); witnesses; mutual induction over the tree with the bytes taken; C92 and VisitModel as the instance that catches nothing | partial | `C100_in_step_refuted`, `C100_panic_refuted`, `C100_next_element_refuted`, `C100_in_step_partial`, `C100_textless_partial`, `C100_no_panic_partial`, `C100_units_partial`, `C100_forward`, `C100_instance` |
| C101 | programs of an extended protocol understand those of the old one | `upgrade` of definitions in terms of values and labels; mutual induction over XDR values; C56 and C78 for the two programs | proved | `C101_values`, `C101_decoded` |
| C102 | appended definitions leave the code of the others as it is | witness; every function of gen_code.rs depends on the definitions through the names it asks for; C60 | partial | `C102_append_refuted`, `C102_append_partial` |
| C103 | an old program never mistakes a message of an extended protocol | witnesses; by induction over the values of the new protocol: bytes that the old decoder accepts as a beginning and that encode the value consist of a value of the old type; C78, C101; decoding of a generated type ends with a value or an error | partial | `C103_indexer_refuted`, `C103_gap_refuted`, `C103_read_partial`, `C103_answer_partial`, `C103_programs_partial` |
| C104 | the accepted inputs are the encodings, but for four liberties | witness; an independent relation of definitions, values and accepted bytes (`SpecRead`); mutual induction over XDR values against the bytes that the generated types accept (C10, C78) | partial | `C104_gap_refuted`, `C104_accepted_partial` |
| C105 | the flags do not change which inputs are accepted | witnesses; induction over `xread`: more liberal modes read the same bytes as the same value; C104 | partial | `C105_union_refuted`, `C105_indexer_refuted`, `C105_stricter_partial` |
| C106 | an input means the same to all programs that accept it | witness; `xread` is monotone in the modes and functional in its most liberal mode; C104 | partial | `C106_gap_refuted`, `C106_same_value_partial` |
| C107 | decoding requests a fixed amount of memory per byte of input | a meter that runs beside `deser` and adds up every heap request: serde's cautious capacity, the growth of `Vec`, `Box::new`, string copies, `vec![0u8; size]` (`AllocModel`); an amortised bound by induction on the depth of calls; the shape of emitted items to show that generated types meet the hypotheses (`AllocGen`); a generated tree for the lower bound | proved | `C107_bounded`, `C107_generated`, `C107_amplified` |
| C108 | NotEnoughData says how many bytes to read from a stream | the reading program as a relation over `from_bytes` (SpecFrame.v); witness; induction on the missing bytes with C86 | partial | `C108_stream_refuted`, `C108_stream_partial`, `C108_messages_partial`, `C108_unrounded` |
| C109 | the time to read an interface file grows polynomially with its length | a counting copy of every combinator and grammar function (`CostModel`), with erasure to the parser model (`CostProofs`); lower bound by induction on the nesting with C31's completeness for the results (`CostLower`); upper bound by composing bounds of combinators, nesting bound 1 suffices for flat files (`CostUpper`) | partial | `C109_polynomial_refuted`, `C109_nested`, `C109_polynomial_partial`, `C109_depth_partial`, `C109_counting`, `C109_settled` |
| C110 | the time to generate code grows polynomially with the definitions | a counting copy of the functions that look up names (`LookupModel`); lower bound by induction on the chain of names, upper bound by induction on the model's bound: a name that is resolved only with one more level is new, and doubles the count only if it is defined twice (`LookupProofs`) | partial | `C110_polynomial_refuted`, `C110_ladder`, `C110_polynomial_partial`, `C110_doubles_partial`, `C110_counting`, `C110_settled` |
| C111 | the generated code has no more parts than the interface file | lengths of the lists that the generator model builds, by induction over the two loops that fill gaps (`SizeProofs`) | partial | `C111_union_gaps`, `C111_enum_named_gaps`, `C111_union_named_gaps`, `C111_size_refuted`, `C111_gaps`, `C111_size_partial`, `C111_range_partial` |
| C112 | a message can be read as any other Rust type of the same XDR data | an inductive relation between values of two types, written from RFC 4506 (`SpecAlike`); mutual induction over it, once for what values denote and once for the messages that types accept | proved | `C112_written`, `C112_writable`, `C112_supported`, `C112_read` |
| C113 | Rust types of the same XDR data read the same messages | the same relation; witness word 2 for bool and for an enum of two members | partial | `C113_messages_refuted`, `C113_messages_partial`, `C113_mutual_partial` |
| C114 | the error of the decoder is the first thing that is wrong | an inductive relation between types, inputs and errors (`SpecError`), like `panics`; induction over the recursion bound for one direction, over the relation for the other | proved | `C114_error_exact`, `C114_one_error`, `C114_alone`, `C114_generated` |
| C115 | exactly which interface files rpcgen translates | the conditions are stated over the definitions (`SpecTranslate`), with inductive relations for what a type name stands for; one direction inverts a successful run, the other finds a sufficient recursion bound by induction over those relations | proved | `C115_exact`, `C115_tool`, `C115_numbers` |
| C116 | flags do not stop a file from being translated | from C115, as only the condition on gaps depends on the flags; for the overflow checks, by comparing the two runs | proved | `C116_more_flags`, `C116_any_flags`, `C116_unchecked` |
| C117 | exactly which interface files make rpcgen panic | as C115, with the panics stated in `SpecToolPanic`; the order of the case labels comes from a lemma that says where the stable sort puts an element and from where it takes one | proved | `C117_exact`, `C117_tool`, `C117_apart`, `C117_error` |
| C118 | exactly which interface files give an error, and which | as C117, with the errors stated in `SpecToolError`; a constant whose value gives an error is then sought among the enum members, and only if it is not there either its own name is reported; numbers and errors of names are defined together (`number_is`, `number_error` in `SpecTranslate`) | proved | `C118_exact`, `C118_tool`, `C118_endless` |
| C119 | the exit status of rpcgen follows from the contents of the file | C115, C117, C118 and the parser theorems (C31 to C34) put together over the model of main.rs (`StatusProofs`) | proved | `C119_status_0`, `C119_status_1`, `C119_status_101`, `C119_no_status` |
| C120 | the text of a codec error says which error it is | model of Display and Debug (`DisplayModel`); escapes are a prefix code, numerals are read back (`DisplayProofs`) | proved | `C120_injective`, `C120_numbers` |
| C121 | the text of a codec error is one line | case analysis of the escapes (`DisplayProofs`) | proved | `C121_characters` |
| C122 | what rpcgen prints on the standard error follows from the contents of the file | C118, C119 and the injectivity of the texts (`ComplainProofs`) | proved | `C122_status`, `C122_named`, `C122_unsupported`, `C122_syntax`, `C122_line` |
| C123 | an Encoding error says where the text stops to be UTF-8 | model of the validation with its error (`Utf8Error`), induction over the bytes (`Utf8ErrorProofs`) | proved | `C123_position`, `C123_when` |

## 3. Findings

Statements that turned out to be false of the code, with witnesses in the `_refuted`
theorems:

* a string or opaque whose padding is missing panics the decoder (C09);
* lengths of 2^32 and more are written modulo 2^32 (C18);
* `opaque::variable` allocates the declared length before reading (C20);
* derived visitors panic for ten fields (C24, C25);
* files of white space only, type names beginning with `void`, built-in types next to
  punctuation and separated versions are rejected (C35, C36, C37, C61);
* name resolution falls back to enum members when a constant does not fit (C40); cyclic
  definitions make the generator loop (C41); eight kinds of files make it panic (C42);
* negative enum members, default arms, fixed opaque arms, typedefs of enums and gaps in
  enums get wrong encodings in some modes (C43, C45-C50, C73);
* constants defined by wide constants are emitted with the wrong type (C53); names can
  collide or become keywords (C57, C58, C69, C70);
* declared maxima are not enforced (C63); recursive definitions give types of infinite
  size (C71) or loop the decoder (C74); numeric case labels are not usable (C72); default
  arms panic when written in the indexer mode (C76);
* files that do not compile: array lengths given by a name, arrays and opaque data of more
  than 32 elements, constants defined by enum members, containers of enums with the
  standard traits, `int` discriminants in the union mode, undefined types (C88);
* `Default::default()` of a struct with a field of its own type does not return (C89); the
  default of a union may be unreadable, be read as another variant, or panic when written
  (C90);
* types of the same XDR data do not take the same messages: a word above one is true as a bool
  and an error as an enum of two members (C113).

## 4. Trusted base

* The kernel of Coq 8.16.1, including its virtual machine (`vm_compute`).
* No axiom is added and no kernel check is switched off. `Print Assumptions` prints
  "Closed under the global context" for every one of the 344 theorems named in
  MANIFEST.json: they depend on no axiom, neither of ours nor of the standard library.
  (Loading the standard library's `lia`/ssreflect files brings the seven constants of
  `Coq.ssr.ssrunder.Under_rel` into the environment; no theorem uses them.)
* That the model is faithful to the text of /repo, to nom, serde, serde_derive,
  proc_macro2 and the standard library as far as used: by reading, and by replaying the
  project's 190 unit tests on the model (`ExamplesRepo.v`, and at the top of
  `ExamplesParser.v` and `ExamplesGen.v`); neither is a proof.
* The specifications (`Spec*.v`), which are written from RFC 4506, RFC 5531 and the
  README.

## 5. Testing the theorems

`seeded/LOG.jsonl` records wrong programs: each line is an edit of a model definition, the
claim it breaks, the theorems whose proofs failed, and the theorems that were tightened
because they did not. They were run in scratch copies, by admitting every proof that no
longer goes through and asking `Print Assumptions` which theorems depend on one of them.
