{
 "claims": [
  {
   "property": "C01",
   "status": "proved",
   "theorems": [
    "C01_round_trip"
   ],
   "note": ""
  },
  {
   "property": "C02",
   "status": "proved",
   "theorems": [
    "C02_rfc_conformance"
   ],
   "note": ""
  },
  {
   "property": "C03",
   "status": "proved",
   "theorems": [
    "C03_whole_units"
   ],
   "note": ""
  },
  {
   "property": "C04",
   "status": "proved",
   "theorems": [
    "C04_injective"
   ],
   "note": ""
  },
  {
   "property": "C05",
   "status": "proved",
   "theorems": [
    "C05_prefix_free",
    "C05_consumes_its_encoding",
    "C05_concatenation"
   ],
   "note": ""
  },
  {
   "property": "C06",
   "status": "proved",
   "theorems": [
    "C06_trailing_data"
   ],
   "note": ""
  },
  {
   "property": "C07",
   "status": "proved",
   "theorems": [
    "C07_truncated"
   ],
   "note": ""
  },
  {
   "property": "C08",
   "status": "proved",
   "theorems": [
    "C08_accepts_whole_units"
   ],
   "note": ""
  },
  {
   "property": "C09",
   "status": "partial",
   "theorems": [
    "C09_panic_refuted",
    "C09_no_panic_partial",
    "C09_panic_exact"
   ],
   "note": "The statement is false: a string or opaque whose bytes are present but whose padding is missing panics (de.rs:91,102), shown by C09_panic_refuted. The partial theorem covers every input made of whole XDR units. C09_panic_exact characterises the panicking inputs of every type, without premises: cut padding, panicking or incomplete lookup tables, and a tenth field of a derived variant."
  },
  {
   "property": "C10",
   "status": "proved",
   "theorems": [
    "C10_local"
   ],
   "note": ""
  },
  {
   "property": "C11",
   "status": "proved",
   "theorems": [
    "C11_narrow_integers"
   ],
   "note": ""
  },
  {
   "property": "C12",
   "status": "proved",
   "theorems": [
    "C12_bool",
    "C12_none",
    "C12_some",
    "C12_written"
   ],
   "note": ""
  },
  {
   "property": "C13",
   "status": "proved",
   "theorems": [
    "C13_normalise"
   ],
   "note": ""
  },
  {
   "property": "C14",
   "status": "proved",
   "theorems": [
    "C14_utf8",
    "C14_invalid"
   ],
   "note": ""
  },
  {
   "property": "C15",
   "status": "proved",
   "theorems": [
    "C15_char"
   ],
   "note": ""
  },
  {
   "property": "C16",
   "status": "proved",
   "theorems": [
    "C16_negative",
    "C16_unknown",
    "C16_selected",
    "C16_unit"
   ],
   "note": ""
  },
  {
   "property": "C17",
   "status": "proved",
   "theorems": [
    "C17_faults"
   ],
   "note": ""
  },
  {
   "property": "C18",
   "status": "partial",
   "theorems": [
    "C18_bytes_refuted",
    "C18_seq_refuted",
    "C18_prefix_partial",
    "C18_wraps_partial",
    "C18_exact_partial",
    "C18_read_partial"
   ],
   "note": "The statement is false: ser.rs:92,158,187 cast lengths with `as u32` and write a wrong prefix at 2^32, shown by the two _refuted theorems. The partial theorems cover lengths below 2^32, show that the prefix is always the length modulo 2^32 and is the length exactly below 2^32, and that no value of 2^32 elements or more is ever read."
  },
  {
   "property": "C19",
   "status": "proved",
   "theorems": [
    "C19_variable",
    "C19_fixed",
    "C19_read_variable",
    "C19_read_fixed"
   ],
   "note": ""
  },
  {
   "property": "C20",
   "status": "partial",
   "theorems": [
    "C20_memory_refuted",
    "C20_text_and_bytes_partial"
   ],
   "note": "The statement is false for opaque::variable (opaque.rs:72 allocates the declared length first), shown by C20_memory_refuted. The partial theorem covers strings and byte buffers."
  },
  {
   "property": "C21",
   "status": "proved",
   "theorems": [
    "C21_seq",
    "C21_promise",
    "C21_map"
   ],
   "note": ""
  },
  {
   "property": "C22",
   "status": "proved",
   "theorems": [
    "C22_last_wins"
   ],
   "note": ""
  },
  {
   "property": "C23",
   "status": "proved",
   "theorems": [
    "C23_write",
    "C23_read",
    "C23_inverse"
   ],
   "note": ""
  },
  {
   "property": "C24",
   "status": "partial",
   "theorems": [
    "C24_many_fields_refuted",
    "C24_indexer_partial",
    "C24_derived_partial",
    "C24_many_fields",
    "C24_exact_partial",
    "C24_read_partial"
   ],
   "note": "The statement is false for ten or more fields: the generated visitor has arms up to nine fields and panics (serde-xdr-derive lib.rs). C24_indexer_partial and C24_derived_partial (about the expanded code) cover up to nine; C24_many_fields says that every variant with more panics, and C24_exact_partial and C24_read_partial that exactly the variants of up to nine fields come back."
  },
  {
   "property": "C25",
   "status": "partial",
   "theorems": [
    "C25_many_fields_refuted",
    "C25_union_partial",
    "C25_derived_partial",
    "C25_many_fields",
    "C25_unit_variant",
    "C25_unit_variant_refuted",
    "C25_exact_partial",
    "C25_read_partial"
   ],
   "note": "The statement is false for ten or more fields after the discriminant and for variants without fields, which are written as nothing (C25_unit_variant_refuted). C25_union_partial and C25_derived_partial (about the expanded code) cover the rest; C25_many_fields and C25_unit_variant say what happens to every excluded variant; C25_exact_partial and C25_read_partial show that nine fields is exactly the limit."
  },
  {
   "property": "C26",
   "status": "proved",
   "theorems": [
    "C26_newtype",
    "C26_box",
    "C26_unit",
    "C26_tuple",
    "C26_tuple_struct",
    "C26_struct",
    "C26_array",
    "C26_variant"
   ],
   "note": ""
  },
  {
   "property": "C27",
   "status": "proved",
   "theorems": [
    "C27_f32",
    "C27_f64"
   ],
   "note": ""
  },
  {
   "property": "C28",
   "status": "proved",
   "theorems": [
    "C28_terminates"
   ],
   "note": ""
  },
  {
   "property": "C29",
   "status": "proved",
   "theorems": [
    "C29_appends"
   ],
   "note": ""
  },
  {
   "property": "C30",
   "status": "proved",
   "theorems": [
    "C30_padding",
    "C30_padding_fixed"
   ],
   "note": ""
  },
  {
   "property": "C31",
   "status": "proved",
   "theorems": [
    "C31_accepts_grammar"
   ],
   "note": ""
  },
  {
   "property": "C32",
   "status": "proved",
   "theorems": [
    "C32_accepts_only_grammar"
   ],
   "note": ""
  },
  {
   "property": "C33",
   "status": "proved",
   "theorems": [
    "C33_terminates",
    "C33_one_result"
   ],
   "note": ""
  },
  {
   "property": "C34",
   "status": "proved",
   "theorems": [
    "C34_well_formed"
   ],
   "note": ""
  },
  {
   "property": "C35",
   "status": "partial",
   "theorems": [
    "C35_blank_refuted",
    "C35_empty_partial",
    "C35_blank_rejected"
   ],
   "note": "The statement is false: a file of white space or comments only is rejected with TrailingData (parser.rs:18-24, 609-611), shown by C35_blank_refuted and for every non-empty blank text by C35_blank_rejected."
  },
  {
   "property": "C36",
   "status": "partial",
   "theorems": [
    "C36_type_name_refuted",
    "C36_type_name_partial",
    "C36_exact_partial"
   ],
   "note": "The statement is false: type names beginning with void are rejected and char/short are taken as built-in (parser.rs: declaration, type_specifier). The partial theorems cover every other name, and C36_exact_partial shows that exactly these names are accepted."
  },
  {
   "property": "C37",
   "status": "partial",
   "theorems": [
    "C37_punctuation_refuted",
    "C37_spaced_partial",
    "C37_exact_partial"
   ],
   "note": "The statement is false: built-in types must be followed by white space (parser.rs: type_specifier). The partial theorems cover all built-in types followed by white space, and C37_exact_partial shows that before an asterisk the white space is exactly what is needed."
  },
  {
   "property": "C38",
   "status": "proved",
   "theorems": [
    "C38_value",
    "C38_in_text"
   ],
   "note": ""
  },
  {
   "property": "C39",
   "status": "proved",
   "theorems": [
    "C39_layout",
    "C39_padding"
   ],
   "note": ""
  },
  {
   "property": "C40",
   "status": "partial",
   "theorems": [
    "C40_first_constant_refuted",
    "C40_value_partial",
    "C40_only_that_value_partial",
    "C40_unknown_name",
    "C40_exact_partial"
   ],
   "note": "The statement is false: resolve_name (gen_code.rs:87-93) falls through to enum members when the constant exists but does not fit the requested integer type, shown by C40_first_constant_refuted. The partial theorems cover values that fit and files in which no name is a constant and a member. C40_exact_partial says for every file exactly which number or error a value gives."
  },
  {
   "property": "C41",
   "status": "partial",
   "theorems": [
    "C41_circular_values",
    "C41_circular_types",
    "C41_terminates_refuted",
    "C41_typedefs_refuted",
    "C41_terminates_partial",
    "C41_one_result"
   ],
   "note": "The statement is false: constants, members or typedefs that refer to themselves make the generator recurse forever (gen_code.rs:55-104, 881-896). The partial theorem covers every file whose names are well-founded. C41_circular_values and C41_circular_types: no circle of names that is needed for an enum, a struct or a union is ever translated, whatever its length."
  },
  {
   "property": "C42",
   "status": "partial",
   "theorems": [
    "C42_never_panics_refuted",
    "C42_never_panics_partial"
   ],
   "note": "The statement is false: eight kinds of files panic (unwrap at 356/387/681, Ident::new on empty or numeric names, format_ident of a negative number, r#self, integer overflow). The partial theorem excludes exactly those kinds; C117 says exactly which files panic."
  },
  {
   "property": "C43",
   "status": "partial",
   "theorems": [
    "C43_members_refuted",
    "C43_members_partial"
   ],
   "note": "The statement is false: in default mode a negative member is emitted as a Reserved-style serde variant index and cannot be written as its value (gen_code.rs: convert_enum_token), shown by C43_members_refuted. The partial theorem covers enums whose members are not negative (and all enums in indexer mode)."
  },
  {
   "property": "C44",
   "status": "proved",
   "theorems": [
    "C44_traits"
   ],
   "note": ""
  },
  {
   "property": "C45",
   "status": "partial",
   "theorems": [
    "C45_indexer_refuted",
    "C45_indexer_partial",
    "C45_unknown_words"
   ],
   "note": "The statement is false: a word of no member is read as the default member, shown by C45_indexer_refuted; C45_unknown_words says which one. The partial theorem covers members."
  },
  {
   "property": "C46",
   "status": "partial",
   "theorems": [
    "C46_arms_refuted",
    "C46_arms_partial"
   ],
   "note": "The statement is false: values of the default arm have no encoding in default mode, shown by C46_arms_refuted. The partial theorem covers case arms of the definitions in supported_defs (SpecXdl.v)."
  },
  {
   "property": "C47",
   "status": "partial",
   "theorems": [
    "C47_indexer_refuted",
    "C47_indexer_partial"
   ],
   "note": "The statement is false: values of the default arm are read but writing them panics, shown by C47_indexer_refuted. The partial theorem covers case arms of the definitions in supported_defs."
  },
  {
   "property": "C48",
   "status": "partial",
   "theorems": [
    "C48_union_refuted",
    "C48_union_partial"
   ],
   "note": "The statement is false: a fixed-length opaque arm is emitted as variable-length data (gen_code.rs:362), shown by C48_union_refuted. The partial theorem covers the definitions in supported_defs, default arms included."
  },
  {
   "property": "C49",
   "status": "partial",
   "theorems": [
    "C49_struct_refuted",
    "C49_struct_partial"
   ],
   "note": "The statement is false in std-trait mode: an enum reached through a typedef is not marked signed32 and is written by variant index, shown by C49_struct_refuted. The partial theorem covers the definitions in supported_defs."
  },
  {
   "property": "C50",
   "status": "partial",
   "theorems": [
    "C50_typedef_refuted",
    "C50_typedef_partial"
   ],
   "note": "The statement is false in std-trait mode for typedefs of enums, shown by C50_typedef_refuted. The partial theorem covers every other typedef chain in struct fields."
  },
  {
   "property": "C51",
   "status": "proved",
   "theorems": [
    "C51_exact",
    "C51_idempotent",
    "C51_no_underscore",
    "C51_same_letters",
    "C51_no_small_start"
   ],
   "note": ""
  },
  {
   "property": "C52",
   "status": "proved",
   "theorems": [
    "C52_exact",
    "C52_idempotent",
    "C52_no_capital",
    "C52_identity",
    "C52_same_letters"
   ],
   "note": ""
  },
  {
   "property": "C53",
   "status": "partial",
   "theorems": [
    "C53_constant_refuted",
    "C53_constants_partial",
    "C53_out_of_range"
   ],
   "note": "The statement is false for constants defined by another constant: they are always emitted as u32 (gen_code.rs:183-201). The partial theorem covers names, order and literal values in full."
  },
  {
   "property": "C54",
   "status": "proved",
   "theorems": [
    "C54_flags"
   ],
   "note": ""
  },
  {
   "property": "C55",
   "status": "proved",
   "theorems": [
    "C55_items"
   ],
   "note": ""
  },
  {
   "property": "C56",
   "status": "proved",
   "theorems": [
    "C56_end_to_end"
   ],
   "note": "Proved for the supported subset (definitions_ok in SpecXdl.v), all 16 flag combinations. Outside union mode the values that select a default arm are left out (see C46, C47)."
  },
  {
   "property": "C57",
   "status": "partial",
   "theorems": [
    "C57_distinct_refuted",
    "C57_screaming_partial",
    "C57_one_word_partial",
    "C57_fields_partial",
    "C57_letters_partial"
   ],
   "note": "The statement is false: A_B and AB become the same Rust name. The partial theorems name classes of names without collisions."
  },
  {
   "property": "C58",
   "status": "partial",
   "theorems": [
    "C58_field_names_refuted",
    "C58_field_names_partial",
    "C58_field_names_exact"
   ],
   "note": "The statement is false: the keyword test precedes the case conversion (gen_code.rs:407-413), so a field Type becomes the bare keyword type. The partial theorem shows that this needs a capital in the name; C58_field_names_exact says that every such field has this effect."
  },
  {
   "property": "C59",
   "status": "proved",
   "theorems": [
    "C59_no_panic_on_units"
   ],
   "note": ""
  },
  {
   "property": "C60",
   "status": "proved",
   "theorems": [
    "C60_concatenation"
   ],
   "note": ""
  },
  {
   "property": "C61",
   "status": "partial",
   "theorems": [
    "C61_versions_refuted",
    "C61_versions_partial"
   ],
   "note": "The statement is false: versions must follow each other without white space (parser.rs:778-792, many1(version)). The partial theorem covers that layout."
  },
  {
   "property": "C62",
   "status": "proved",
   "theorems": [
    "C62_unambiguous"
   ],
   "note": ""
  },
  {
   "property": "C63",
   "status": "partial",
   "theorems": [
    "C63_maxima_refuted",
    "C63_maxima_partial"
   ],
   "note": "The statement is false: the generator drops declared maxima, shown by C63_maxima_refuted. The partial theorem says that they never influence the generated code."
  },
  {
   "property": "C64",
   "status": "proved",
   "theorems": [
    "C64_programs"
   ],
   "note": ""
  },
  {
   "property": "C65",
   "status": "proved",
   "theorems": [
    "C65_order"
   ],
   "note": ""
  },
  {
   "property": "C66",
   "status": "proved",
   "theorems": [
    "C66_flags"
   ],
   "note": ""
  },
  {
   "property": "C67",
   "status": "proved",
   "theorems": [
    "C67_imports"
   ],
   "note": ""
  },
  {
   "property": "C68",
   "status": "proved",
   "theorems": [
    "C68_enum_default",
    "C68_union_default"
   ],
   "note": ""
  },
  {
   "property": "C69",
   "status": "partial",
   "theorems": [
    "C69_type_names_refuted",
    "C69_type_names_partial",
    "C69_exact_partial"
   ],
   "note": "The statement is false: a definition named self becomes the type Self, shown by C69_type_names_refuted. One partial theorem says that this is the only keyword that can result, C69_exact_partial that it results exactly if a definition that becomes an item is called self or Self, or has these letters in either case with underscores around them."
  },
  {
   "property": "C70",
   "status": "partial",
   "theorems": [
    "C70_const_names_refuted",
    "C70_const_names_partial",
    "C70_exact_partial"
   ],
   "note": "The statement is false: constants keep their names, also keywords such as match, shown by C70_const_names_refuted. One partial theorem says which names are emitted, C70_exact_partial that one is a keyword exactly if a constant of the file is called by one."
  },
  {
   "property": "C71",
   "status": "partial",
   "theorems": [
    "C71_finite_refuted",
    "C71_finite_partial",
    "C71_flat_partial",
    "C71_circular"
   ],
   "note": "The statement is false for mutual recursion, recursion through unions and the struct/typedef idiom of RFC 4506, shown by C71_finite_refuted. C71_flat_partial: every file whose definitions do not hold themselves in place, other than a field that names its own struct, has types of finite size. C71_circular: every file with a chain of structs and unions, of any length and through typedefs, arrays and optional data, that leads back to its beginning has not. C71_finite_partial says which fields are boxed."
  },
  {
   "property": "C72",
   "status": "partial",
   "theorems": [
    "C72_numbers_refuted",
    "C72_numbers_partial"
   ],
   "note": "The statement is false: the variant is named by the number itself, which is no Rust identifier, shown by C72_numbers_refuted for all flags. The partial theorem says so for every such union."
  },
  {
   "property": "C73",
   "status": "partial",
   "theorems": [
    "C73_words_refuted",
    "C73_words_partial"
   ],
   "note": "The statement is false: gaps below the greatest member are read as reserved variants, shown by C73_words_refuted. The partial theorem says exactly which words are read."
  },
  {
   "property": "C74",
   "status": "partial",
   "theorems": [
    "C74_terminates_refuted",
    "C74_terminates_partial",
    "C74_outcome_partial"
   ],
   "note": "The statement is false: a struct with a field of its own type decodes forever, shown by C74_terminates_refuted. The partial theorem covers all files without such a field."
  },
  {
   "property": "C75",
   "status": "proved",
   "theorems": [
    "C75_decode_no_panic"
   ],
   "note": ""
  },
  {
   "property": "C76",
   "status": "partial",
   "theorems": [
    "C76_encode_no_panic_refuted",
    "C76_encode_no_panic_partial"
   ],
   "note": "The statement is false: a default arm read in the indexer mode panics when written, shown by C76_encode_no_panic_refuted. The partial theorem covers every other case."
  },
  {
   "property": "C77",
   "status": "partial",
   "theorems": [
    "C77_flags_agree_refuted",
    "C77_flags_agree_partial"
   ],
   "note": "The statement is false: a word in a gap of an enum is kept by default-mode code and read as the Default by indexer-mode code, shown by C77_flags_agree_refuted. The partial theorem covers files without such gaps, with case labels that are values of the discriminant and without default arms outside union mode."
  },
  {
   "property": "C78",
   "status": "partial",
   "theorems": [
    "C78_decoded_refuted",
    "C78_decoded_partial"
   ],
   "note": "The statement is false: reserved variants stand for no described value, shown by C78_decoded_refuted. The partial theorem covers files without gaps, with case labels that are values of the discriminant and without default arms outside union mode; described values are those without the declared maxima, which the generator drops (C63)."
  },
  {
   "property": "C79",
   "status": "proved",
   "theorems": [
    "C79_print_parse",
    "C79_reprint",
    "C79_print_injective"
   ],
   "note": ""
  },
  {
   "property": "C80",
   "status": "partial",
   "theorems": [
    "C80_writable_refuted",
    "C80_writable_partial"
   ],
   "note": "The statement is false: a type called char or short cannot be used for a variable or an array because the word is taken for the built-in type, shown by C80_writable_refuted. The partial theorem is exact: it says which lists can be written."
  },
  {
   "property": "C81",
   "status": "partial",
   "theorems": [
    "C81_normalised_refuted",
    "C81_normalised_partial"
   ],
   "note": "The statement is false: in the indexer mode a default arm is read but panics when written, shown by C81_normalised_refuted. The partial theorem covers everything else, with no restriction on enums, gaps or words of no member."
  },
  {
   "property": "C82",
   "status": "proved",
   "theorems": [
    "C82_endless"
   ],
   "note": ""
  },
  {
   "property": "C83",
   "status": "partial",
   "theorems": [
    "C83_size_refuted",
    "C83_size_partial",
    "C83_unions_partial"
   ],
   "note": "The statement is false: a reserved variant that default mode adds for a gap among the case values carries no data, shown by C83_size_refuted. C83_size_partial covers every fixed-size type without a union in it in every file that generates; C83_unions_partial covers all fixed-size types, unions included, in files whose definitions are exact (C78), which excludes reserved variants and default arms outside union mode."
  },
  {
   "property": "C84",
   "status": "proved",
   "theorems": [
    "C84_missing_bytes"
   ],
   "note": ""
  },
  {
   "property": "C85",
   "status": "proved",
   "theorems": [
    "C85_final_errors",
    "C85_trailing_bytes"
   ],
   "note": ""
  },
  {
   "property": "C86",
   "status": "partial",
   "theorems": [
    "C86_beginnings_refuted",
    "C86_beginnings_partial"
   ],
   "note": "The statement is false: inside the padding of a string or of opaque data the decoder panics, shown by C86_beginnings_refuted. The partial theorem is exact: a proper beginning gives NotEnoughData, or a panic within three bytes of a unit boundary."
  },
  {
   "property": "C87",
   "status": "partial",
   "theorems": [
    "C87_named_fields_refuted",
    "C87_no_field_refuted",
    "C87_indexer_partial",
    "C87_union_partial"
   ],
   "note": "The statement is false: named fields panic in both macros and XdrUnion needs a variant with a field, shown by C87_named_fields_refuted and C87_no_field_refuted. The partial theorems are exact."
  },
  {
   "property": "C88",
   "status": "partial",
   "theorems": [
    "C88_accepted_refuted",
    "C88_accepted_partial",
    "C88_not_rejected",
    "C88_named_length",
    "C88_long_array",
    "C88_member_const",
    "C88_enum_container",
    "C88_int_union",
    "C88_undefined_type",
    "C88_number_label"
   ],
   "note": "The statement is false for every combination of flags: named array lengths, C88_accepted_refuted. The partial theorem gives files that no reason of the list applies to; the other theorems are seven constructs of the language with which a reason does. What rustc rejects is a list of sufficient reasons, written from the language rules and not from the compiler."
  },
  {
   "property": "C89",
   "status": "partial",
   "theorems": [
    "C89_default_refuted",
    "C89_default_partial",
    "C89_endless"
   ],
   "note": "The statement is false: the default of a struct with a field of its own type calls itself forever, shown by C89_default_refuted and, for every such struct, by C89_endless. The partial theorem covers all files without such a field."
  },
  {
   "property": "C90",
   "status": "partial",
   "theorems": [
    "C90_unread_refuted",
    "C90_changed_refuted",
    "C90_unwritten_refuted",
    "C90_default_partial"
   ],
   "note": "The statement is false: with union output the default variant need not be the one that its default discriminant selects (C90_unread_refuted, C90_changed_refuted), with indexer output a default arm cannot be written (C90_unwritten_refuted). The partial theorem covers everything else; with union output its hypothesis is the one of SpecDefault.v on the interface file."
  },
  {
   "property": "C91",
   "status": "proved",
   "theorems": [
    "C91_local",
    "C91_units",
    "C91_types"
   ],
   "note": ""
  },
  {
   "property": "C92",
   "status": "proved",
   "theorems": [
    "C92_calm"
   ],
   "note": ""
  },
  {
   "property": "C93",
   "status": "proved",
   "theorems": [
    "C93_loopback",
    "C93_stream"
   ],
   "note": ""
  },
  {
   "property": "C94",
   "status": "proved",
   "theorems": [
    "C94_missing",
    "C94_trailing",
    "C94_final",
    "C94_cut"
   ],
   "note": ""
  },
  {
   "property": "C95",
   "status": "partial",
   "theorems": [
    "C95_inflated_refuted",
    "C95_empty_elements",
    "C95_bounded_partial"
   ],
   "note": "The statement is false: four bytes give 2^32-1 elements of a type that takes no bytes, shown by C95_inflated_refuted on a generated type and by C95_empty_elements for every such type. The partial theorem covers types whose sequence elements and map entries take bytes."
  },
  {
   "property": "C96",
   "status": "partial",
   "theorems": [
    "C96_layered_partial",
    "C96_deep_refuted",
    "C96_shallow_partial"
   ],
   "note": "False for types that contain themselves (C96_deep_refuted). C96_layered_partial covers every generated program whose definitions are not made of themselves, through typedefs, optional fields, arrays and unions alike; C96_shallow_partial covers hand-written types of bounded depth. Missing: recursive types."
  },
  {
   "property": "C97",
   "status": "proved",
   "theorems": [
    "C97_text_is_rust",
    "C97_accepted_text",
    "C97_text_lexes",
    "C97_condition_needed"
   ],
   "note": "Proved as stated, that is, for files in the supported subset; C97_condition_needed has files outside of it whose text is not a Rust file. Reading covers the item syntax that the templates use, not all of Rust."
  },
  {
   "property": "C98",
   "status": "proved",
   "theorems": [
    "C98_all_or_nothing",
    "C98_success",
    "C98_accepted",
    "C98_unreadable",
    "C98_not_utf8",
    "C98_not_protocol",
    "C98_failures",
    "C98_one_result",
    "C98_ends",
    "C98_ends_needed"
   ],
   "note": "Proved as stated. That rpcgen ends for every file is false (C98_ends_needed, C41); a run that does not end in the model is a stack overflow in reality. Command-line parsing, the messages on standard error and a failing standard output are not modelled."
  },
  {
   "property": "C99",
   "status": "proved",
   "theorems": [
    "C99_program_speaks",
    "C99_text_meaning",
    "C99_signed32_functions",
    "C99_indexer_functions",
    "C99_union_functions"
   ],
   "note": "Proved as stated. The meaning of the text (SpecMeaning.v) is a specification of the subset of Rust that rpcgen prints: derives, the with attribute, constants, imports, and function bodies that are a match on the parameter; C99_*_functions relate its tables to running these functions arm by arm. Type and borrow checking and the expansion of the derive macros by rustc are not modelled beyond that."
  },
  {
   "property": "C100",
   "status": "partial",
   "theorems": [
    "C100_in_step_refuted",
    "C100_panic_refuted",
    "C100_next_element_refuted",
    "C100_in_step_partial",
    "C100_textless_partial",
    "C100_no_panic_partial",
    "C100_units_partial",
    "C100_forward",
    "C100_instance"
   ],
   "note": "The statement is false: read_string returns the UTF-8 error before it skips the padding, so that the position is inside of a unit and later reads are out of step (C100_in_step_refuted) or panic (C100_panic_refuted); what is left of a half-read element is read as the next one (C100_next_element_refuted). The partial theorems cover every impl that passes errors on where it reads text."
  },
  {
   "property": "C101",
   "status": "proved",
   "theorems": [
    "C101_values",
    "C101_decoded"
   ],
   "note": ""
  },
  {
   "property": "C102",
   "status": "partial",
   "theorems": [
    "C102_append_refuted",
    "C102_append_partial"
   ],
   "note": "The statement is false with the std-trait flag: the declared type of a string is looked up under the name String, so that an appended enum of that name turns the string fields of existing structs into enum fields (C102_append_refuted). The partial theorem covers all other appended definitions."
  },
  {
   "property": "C103",
   "status": "partial",
   "theorems": [
    "C103_indexer_refuted",
    "C103_gap_refuted",
    "C103_read_partial",
    "C103_answer_partial",
    "C103_programs_partial"
   ],
   "note": "The statement is false: with the indexer flag an enum takes a number that it does not know for its first member (C103_indexer_refuted), and without flags an enum or union takes numbers that the old file skipped for reserved variants, which carry no data, so that the data that follows is read as something else (C103_gap_refuted, C103_mixed). The partial theorems cover old files whose definitions are exact in the sense of C78 and, with the indexer flag, enums that got no new members: every message of the new protocol is read as what was meant or answered with an error, with whatever flags either side was generated."
  },
  {
   "property": "C104",
   "status": "partial",
   "theorems": [
    "C104_gap_refuted",
    "C104_accepted_partial"
   ],
   "note": "The statement is false without flags for enums and unions whose numbers have gaps: the numbers of the gap are accepted as reserved variants, which stand for no value of the protocol (C104_gap_refuted). The partial theorem is an equivalence for exact definitions in the sense of C78."
  },
  {
   "property": "C105",
   "status": "partial",
   "theorems": [
    "C105_union_refuted",
    "C105_indexer_refuted",
    "C105_stricter_partial"
   ],
   "note": "The statement is false: with the union flag the discriminant is read like any bool, so that the word 2 stands for TRUE, while without it only the word 1 does (C105_union_refuted); with the indexer flag unknown numbers of an enum are accepted (C105_indexer_refuted). The partial theorem shows, for exact definitions, that these two flags only add inputs: what a program without them accepts, a program with them accepts as the same value; hence programs that agree on the two flags accept the same inputs."
  },
  {
   "property": "C106",
   "status": "partial",
   "theorems": [
    "C106_gap_refuted",
    "C106_same_value_partial"
   ],
   "note": "The statement is false for enums whose numbers have gaps: without flags a number of the gap is a reserved variant, with the indexer flag it is the lowest member (C106_gap_refuted). The partial theorem covers exact definitions, all pairs of flag sets and all inputs, also those that no program writes."
  },
  {
   "property": "C107",
   "status": "proved",
   "theorems": [
    "C107_bounded",
    "C107_generated",
    "C107_amplified"
   ],
   "note": "Requests are summed, not the memory in use at one time; the sizes of Rust types are a parameter. The tables of maps and the texts of errors are not counted. C107_generated states the bound for generated types under any flags, given only that no definition is made of itself and that S bounds the sizes of the types involved."
  },
  {
   "property": "C108",
   "status": "partial",
   "theorems": [
    "C108_stream_refuted",
    "C108_stream_partial",
    "C108_messages_partial",
    "C108_unrounded"
   ],
   "note": "False: NotEnoughData counts the bytes of a string or opaque but not the padding, so that the next call panics (C108_stream_refuted). The partial theorems cover the program that rounds each request up to whole units; C108_unrounded says that the other one gets the same result or the panic. The reading program is a relation of the specification (SpecFrame.v), not code of the repository."
  },
  {
   "property": "C109",
   "status": "partial",
   "theorems": [
    "C109_polynomial_refuted",
    "C109_nested",
    "C109_polynomial_partial",
    "C109_depth_partial",
    "C109_counting",
    "C109_settled"
   ],
   "note": "False: declaration tries type_specifier four times, so that every structure written inside another one multiplies the work by 4 (C109_nested; C109_polynomial_refuted beats every polynomial). C109_polynomial_partial bounds the steps by a polynomial for files in which no structure or union is written where a type is used; C109_depth_partial by a polynomial whose degree is the nesting depth. A step is one call of an elementary nom matcher, each of which looks at the remaining text at most once (CostModel.v); C109_counting and C109_settled tie the counter to the parser model."
  },
  {
   "property": "C110",
   "status": "partial",
   "theorems": [
    "C110_polynomial_refuted",
    "C110_ladder",
    "C110_polynomial_partial",
    "C110_doubles_partial",
    "C110_counting",
    "C110_settled"
   ],
   "note": "False: resolve_name tries a name as a constant and, if that fails anywhere further on, again as an enum member, so that every name that is both doubles the work (C110_ladder: d such names take 2^d - 1 lookups before the error; C110_polynomial_refuted beats every polynomial). C110_polynomial_partial gives a quadratic bound for files in which no name is both; C110_doubles_partial has the number of such names in the exponent. A lookup is one call of Context::resolve_name (LookupModel.v); C110_counting and C110_settled tie the counter to the generator model."
  },
  {
   "property": "C111",
   "status": "partial",
   "theorems": [
    "C111_union_gaps",
    "C111_enum_named_gaps",
    "C111_union_named_gaps",
    "C111_size_refuted",
    "C111_gaps",
    "C111_size_partial",
    "C111_range_partial"
   ],
   "note": "False without flags: every gap between the numbers of enum members or cases is filled with reserved variants, so that the 26 characters of enum e { A = 2147483646 }; are turned into 2147483647 variants (C111_size_refuted; C111_gaps for every enum). C111_size_partial proves the property for flags that switch the filling off for both enums and unions; C111_range_partial bounds the growth by 2^32 in all modes."
  },
  {
   "property": "C112",
   "status": "proved",
   "theorems": [
    "C112_written",
    "C112_writable",
    "C112_supported",
    "C112_read"
   ],
   "note": "Proved for all views, nested and chained. Unions of serde-xdr-derive (TIndexer, TUnion, TSigned32) are related to other types only by reflexivity and as components."
  },
  {
   "property": "C113",
   "status": "partial",
   "theorems": [
    "C113_messages_refuted",
    "C113_messages_partial",
    "C113_mutual_partial"
   ],
   "note": "False: bool and Option take every non-zero word for true and Some, but the enum with two members and the vector do not (C113_messages_refuted). C113_messages_partial proves it for messages that to_bytes writes for either value, C113_mutual_partial for all messages if the values can be read as each other."
  },
  {
   "property": "C114",
   "status": "proved",
   "theorems": [
    "C114_error_exact",
    "C114_one_error",
    "C114_alone",
    "C114_generated"
   ],
   "note": "Both directions, for all types without premises; the spec is an inductive relation of inputs and errors beside accepts and panics. C114_generated: no other outcome for generated types (C74 says when decoding ends)."
  },
  {
   "property": "C115",
   "status": "proved",
   "theorems": [
    "C115_exact",
    "C115_tool",
    "C115_numbers"
   ],
   "note": "Both directions; C115_exact for every configuration of the library, C115_tool from the text with the flags of the tool."
  },
  {
   "property": "C116",
   "status": "proved",
   "theorems": [
    "C116_more_flags",
    "C116_any_flags",
    "C116_unchecked"
   ],
   "note": "The last part holds without premises on the file; the example beside the theorems shows that the exception in the second part is real."
  },
  {
   "property": "C117",
   "status": "proved",
   "theorems": [
    "C117_exact",
    "C117_tool",
    "C117_apart",
    "C117_error"
   ],
   "note": "Both directions; C117_exact for every configuration of the library, C117_tool from the text with the flags of the tool."
  },
  {
   "property": "C118",
   "status": "proved",
   "theorems": [
    "C118_exact",
    "C118_tool",
    "C118_endless"
   ],
   "note": "Both directions; C118_exact for every configuration of the library, C118_tool from the text with the flags of the tool, C118_endless for the files on which it never returns."
  },
  {
   "property": "C119",
   "status": "proved",
   "theorems": [
    "C119_status_0",
    "C119_status_1",
    "C119_status_101",
    "C119_no_status"
   ],
   "note": "Both directions for each status; nothing of the model occurs on the right-hand sides but the configuration that the flags give."
  },
  {
   "property": "C120",
   "status": "proved",
   "theorems": [
    "C120_injective",
    "C120_numbers"
   ],
   "note": "The Debug texts of integers and strings are the standard library's (modelled from its documentation); the Unicode tables are a parameter over which the theorems quantify."
  },
  {
   "property": "C121",
   "status": "proved",
   "theorems": [
    "C121_characters"
   ],
   "note": "See C120 for what is taken from the standard library."
  },
  {
   "property": "C122",
   "status": "proved",
   "theorems": [
    "C122_status",
    "C122_named",
    "C122_unsupported",
    "C122_syntax",
    "C122_line"
   ],
   "note": "The texts of io::Error for files that cannot be read and of the Parse error are parameters; the Parse error is covered by C122_status and C122_line only."
  },
  {
   "property": "C123",
   "status": "proved",
   "theorems": [
    "C123_position",
    "C123_when"
   ],
   "note": "The details of the error are those of the validation of the standard library, modelled from its source."
  }
 ]
}