{"id": "C01", "title": "encode/decode round trip", "statement": "For every supported type T and every value v of T whose sequence, string and opaque lengths fit in 32 bits and whose variant indexes fit in 31 bits, to_bytes(&v) succeeds and from_bytes::<T> of the result is Ok of a value equal to v.", "quantifier": "all types of the supported universe (including recursive ones), all values", "why_tests_cant": "types and values are unbounded in number, size and nesting", "anchors": ["serde-xdr/src/ser.rs: to_bytes", "serde-xdr/src/de.rs: from_bytes"]}
{"id": "C02", "title": "RFC 4506 conformance of the encoder", "statement": "For every supported type and value (same size limits) the bytes produced by to_bytes are exactly the RFC 4506 encoding of the XDR value that README's data type table assigns to it: big-endian words and hypers, length prefix, zero padding to a multiple of four, no prefix for fixed-size data, discriminant then arm for unions.", "quantifier": "all supported types and values", "why_tests_cant": "tests compare a few literals; the format must hold for every nesting and length residue", "anchors": ["serde-xdr/src/ser.rs: impl ser::Serializer", "README.md: Data Types"]}
{"id": "C03", "title": "output is a whole number of XDR units", "statement": "Whenever to_bytes returns Ok, the number of bytes is a multiple of 4, whatever Serialize implementation drove it.", "quantifier": "all possible sequences of calls into the serializer (all Serialize impls)", "why_tests_cant": "Serialize impls are user code; all call trees have to be covered", "anchors": ["serde-xdr/src/ser.rs: serialize_bytes", "serde-xdr/src/ser.rs: to_bytes"]}
{"id": "C04", "title": "encoding is injective", "statement": "Two values of the same type (within the size limits) that encode to the same bytes are equal.", "quantifier": "all pairs of values of all supported types", "why_tests_cant": "collisions are between pairs of arbitrary values", "anchors": ["serde-xdr/src/ser.rs: to_bytes", "serde-xdr/src/de.rs: from_bytes"]}
{"id": "C05", "title": "self-delimiting encodings", "statement": "Encodings are prefix-free per type: if the encoding of v1 is a prefix of the encoding of v2 at the same type then v1 = v2; and reading a value from its encoding followed by any bytes consumes exactly the encoding, so concatenated encodings are read back one by one.", "quantifier": "all supported types, values and trailing byte strings", "why_tests_cant": "needs every suffix and every pair of values", "anchors": ["serde-xdr/src/de.rs: Deserializer::read", "serde-xdr/src/ser.rs: to_bytes"]}
{"id": "C06", "title": "trailing data is rejected", "statement": "from_bytes on a valid encoding followed by r > 0 extra bytes returns Err(TrailingData(r)) and never Ok.", "quantifier": "all supported types, values and non-empty suffixes", "why_tests_cant": "all suffix lengths and contents", "anchors": ["serde-xdr/src/de.rs: from_bytes"]}
{"id": "C07", "title": "truncated encodings are never accepted", "statement": "from_bytes on any strict prefix of a valid encoding never returns Ok.", "quantifier": "all supported types, values and cut points", "why_tests_cant": "every cut point of every encoding", "anchors": ["serde-xdr/src/de.rs: Deserializer::read", "serde-xdr/src/de.rs: from_bytes"]}
{"id": "C08", "title": "only whole XDR units are accepted", "statement": "If from_bytes returns Ok for an input then the input length is a multiple of 4, for arbitrary (not necessarily encoder-produced) input.", "quantifier": "all supported types, all byte strings", "why_tests_cant": "ranges over all byte strings", "anchors": ["serde-xdr/src/de.rs: from_bytes"]}
{"id": "C09", "title": "decoder never panics", "statement": "from_bytes never panics, whatever the input bytes are; malformed input is reported as Err.", "quantifier": "all supported types, all byte strings", "why_tests_cant": "panics occur on specific malformed inputs of any length", "anchors": ["serde-xdr/src/de.rs: read_string", "serde-xdr/src/de.rs: read_bytes", "serde-xdr/src/opaque.rs: OpaqueVisitor::visit_seq", "serde-xdr-derive/src/lib.rs: visit_seq"]}
{"id": "C10", "title": "decoding is local", "statement": "Reading a value depends only on the bytes it consumes: if reading T from b yields v and leaves r, then b = c ++ r and reading T from c ++ r' yields v and leaves r' for every r'.", "quantifier": "all supported types, all byte strings and all replacements of the unread suffix", "why_tests_cant": "ranges over all inputs and suffixes", "anchors": ["serde-xdr/src/de.rs: Deserializer::read"]}
{"id": "C11", "title": "narrow integers keep the low-order bits", "statement": "Reading an 8- or 16-bit integer from a 4-byte word yields the low-order 8/16 bits of the word (two's complement for signed types); words in range are returned unchanged; exactly 4 bytes are consumed.", "quantifier": "all 2^32 words and all suffixes", "why_tests_cant": "2^32 words times suffixes", "anchors": ["serde-xdr/src/de.rs: deserialize_i8, deserialize_i16, deserialize_u8, deserialize_u16"]}
{"id": "C12", "title": "booleans and optional data: zero/non-zero discriminants", "statement": "A bool reads as false exactly on the zero word and true on every other word; Option reads as None exactly on the zero word and otherwise reads the content; only the words 0 and 1 are ever written.", "quantifier": "all words, all content types and suffixes", "why_tests_cant": "all words", "anchors": ["serde-xdr/src/de.rs: deserialize_bool, deserialize_option", "serde-xdr/src/ser.rs: serialize_bool, serialize_none, serialize_some"]}
{"id": "C13", "title": "accepted input is normalised by re-encoding", "statement": "If from_bytes::<T>(b) is Ok(v) (T without maps) then to_bytes(&v) succeeds, has the same length as b, and decodes to v again; so non-canonical input (junk padding, bool 2, over-wide integers) denotes the value of exactly one canonical encoding.", "quantifier": "all map-free types, all accepted byte strings", "why_tests_cant": "ranges over all accepted inputs", "anchors": ["serde-xdr/src/de.rs: from_bytes", "serde-xdr/src/ser.rs: to_bytes"]}
{"id": "C14", "title": "strings are exactly the valid UTF-8 byte strings", "statement": "Reading a String succeeds exactly if the length prefix, content and padding are all present and the content is valid UTF-8 (the encoding of a sequence of Unicode scalar values); the returned string is the content; invalid content is Err(Encoding) and never a String.", "quantifier": "all byte strings", "why_tests_cant": "ranges over all byte strings, including overlong forms and surrogates", "anchors": ["serde-xdr/src/de.rs: read_string"]}
{"id": "C15", "title": "chars are exactly the Unicode scalar values", "statement": "Reading a char from a word succeeds iff the word is below 0xD800 or between 0xE000 and 0x10FFFF, and yields that code point; anything else is Err(Convert).", "quantifier": "all words and suffixes", "why_tests_cant": "2^32 words", "anchors": ["serde-xdr/src/de.rs: read_char"]}
{"id": "C16", "title": "unknown enum discriminants are rejected", "statement": "For a derived enum with k variants, reading from a word selects variant i exactly when the word is i < k; a negative word is Err(Convert); a word >= k is an error; no other variant is ever produced.", "quantifier": "all derived enums, all words, all suffixes", "why_tests_cant": "all words and all enum shapes", "anchors": ["serde-xdr/src/de.rs: Enum::variant_seed"]}
{"id": "C17", "title": "exact failure conditions of the encoder", "statement": "to_bytes fails exactly when the value contains a sequence or map of unknown length (Err NotSupported), a variant index above 2^31-1 (Err Convert), a 128-bit integer or a user error (Err Custom); the reported error is the first one in serialization order and no partial output is returned.", "quantifier": "all possible sequences of calls into the serializer", "why_tests_cant": "all call trees", "anchors": ["serde-xdr/src/ser.rs: serialize_seq, serialize_map, serialize_unit_variant"]}
{"id": "C18", "title": "length prefixes are never silently truncated", "statement": "to_bytes never emits a length prefix that differs from the number of bytes or elements that follow it.", "quantifier": "all strings, byte strings, sequences and maps", "why_tests_cant": "needs lengths of 2^32 and more, out of reach of tests", "anchors": ["serde-xdr/src/ser.rs: serialize_bytes, serialize_seq, serialize_map"]}
{"id": "C19", "title": "opaque helpers produce XDR opaque data", "statement": "opaque::variable writes the same bytes as serialize_bytes (length, content, zero padding); opaque::fixed writes the content and zero padding without length; both read back the identical bytes and consume 4*ceil(n/4) content bytes.", "quantifier": "all byte strings and all lengths", "why_tests_cant": "every length residue and content", "anchors": ["serde-xdr/src/opaque.rs: enumerate_u32, enumerate_u8, fixed, variable"]}
{"id": "C20", "title": "decoder memory is bounded by the input", "statement": "Reading a byte string never allocates more memory than a constant multiple of the input length.", "quantifier": "all byte strings", "why_tests_cant": "the witness is a huge length prefix", "anchors": ["serde-xdr/src/opaque.rs: enumerate_u8"]}
{"id": "C21", "title": "element counts are bounded by the input", "statement": "A decoded sequence (or map) whose element type occupies at least one XDR unit has at most input_length/4 elements, whatever length prefix was given; a prefix promising more elements is an error.", "quantifier": "all element types with non-empty encoding, all byte strings", "why_tests_cant": "all inputs and hostile prefixes", "anchors": ["serde-xdr/src/de.rs: deserialize_seq, Seq::next_element_seed"]}
{"id": "C22", "title": "maps: last duplicate wins, distinct keys round trip", "statement": "Reading a map yields for every key the value of its last occurrence on the wire; maps with distinct keys round trip in iteration order.", "quantifier": "all key/value types and wire contents", "why_tests_cant": "all duplicate patterns", "anchors": ["serde-xdr/src/de.rs: deserialize_map, Map"]}
{"id": "C23", "title": "signed32 helper", "statement": "With primitive::signed32 a value is written as the big-endian 32-bit AsRef<i32> number; reading applies TryFrom<i32> to that number and reports Custom if it fails; inverse AsRef/TryFrom pairs round trip.", "quantifier": "all conversion tables and words", "why_tests_cant": "all words and all tables", "anchors": ["serde-xdr/src/primitive.rs: signed32"]}
{"id": "C24", "title": "derive(XdrIndexer) round trips", "statement": "For an enum whose index/name_by_index are mutually inverse, to_bytes writes index() as a big-endian i32 followed by the fields in order, and from_bytes of it returns the same value, for any number of fields.", "quantifier": "all enums, field types and values", "why_tests_cant": "all field counts and types", "anchors": ["serde-xdr-derive/src/lib.rs: xdr_indexer"]}
{"id": "C25", "title": "derive(XdrUnion) round trips", "statement": "For an enum whose name_by_value maps the discriminant stored in a value to the value's own variant, to_bytes writes the fields in order (discriminant first) and from_bytes returns the same value, for any number of fields.", "quantifier": "all enums, discriminant types, field types and values", "why_tests_cant": "all shapes", "anchors": ["serde-xdr-derive/src/lib.rs: xdr_union"]}
{"id": "C26", "title": "structure is transparent", "statement": "A newtype or Box encodes as its content, a unit as nothing, a struct/tuple/tuple struct/array as the concatenation of its members in order, an enum variant as its index followed by its members; no names, tags or framing are added.", "quantifier": "all types and values", "why_tests_cant": "all nestings", "anchors": ["serde-xdr/src/ser.rs: serialize_struct, serialize_tuple, serialize_newtype_struct, serialize_unit"]}
{"id": "C27", "title": "floats are bit exact", "statement": "f32/f64 values, including NaN payloads, infinities and signed zero, are written as their big-endian IEEE bit pattern and read back bit for bit.", "quantifier": "all 2^32 and 2^64 bit patterns", "why_tests_cant": "2^64 bit patterns", "anchors": ["serde-xdr/src/ser.rs: serialize_f32, serialize_f64", "serde-xdr/src/de.rs: read_f32, read_f64"]}
{"id": "C28", "title": "decoding terminates", "statement": "from_bytes terminates on every input for every type whose recursion passes through at least one XDR unit (optional data, sequence, enum); its recursion depth is at most linear in the input length.", "quantifier": "all guarded recursive type environments, all byte strings", "why_tests_cant": "non-termination and depth cannot be tested exhaustively", "anchors": ["serde-xdr/src/de.rs: impl de::Deserializer"]}
{"id": "C29", "title": "serialization only appends", "statement": "Serializing a value appends its encoding to the output and never alters or reads what was written before, so the encoding of a pair is the concatenation of the encodings.", "quantifier": "all values and all prior outputs", "why_tests_cant": "all contexts", "anchors": ["serde-xdr/src/ser.rs: impl ser::Serializer"]}
{"id": "C30", "title": "padding content is ignored", "statement": "Changing the padding bytes after a string or opaque never changes the decoded value nor what follows.", "quantifier": "all strings/opaque contents, all paddings, all suffixes", "why_tests_cant": "all paddings", "anchors": ["serde-xdr/src/de.rs: read_string, read_bytes", "serde-xdr/src/opaque.rs: enumerate_u8"]}
{"id": "C31", "title": "parser accepts the XDR/RPCL grammar", "statement": "Every text of the interface definition grammar (constants, typedefs, enums, structs, unions, programs, line comments; with the token spacing the tool requires) parses to exactly the definitions it denotes.", "quantifier": "all definition lists and all their textual forms", "why_tests_cant": "unbounded texts and nesting", "anchors": ["rpcgen/src/parser.rs: parse, specification, definition, declaration, type_specifier"]}
{"id": "C32", "title": "parser accepts nothing else", "statement": "If parse returns Ok(ds), the whole text is consumed and is a text of the grammar denoting exactly ds.", "quantifier": "all texts", "why_tests_cant": "ranges over all texts", "anchors": ["rpcgen/src/parser.rs: parse"]}
{"id": "C33", "title": "parse terminates and reports one kind of error", "statement": "parse returns on every text, either Ok or Err(TrailingData); it never panics and never returns any other error.", "quantifier": "all texts", "why_tests_cant": "all texts, any nesting depth", "anchors": ["rpcgen/src/parser.rs: parse, specification"]}
{"id": "C34", "title": "parsed definitions are well-formed", "statement": "In every parsed definition list identifiers match [A-Za-z_][A-Za-z0-9_]* and are not XDR keywords, enum bodies, struct bodies, case lists and version/procedure lists are non-empty, constants contain only digits of their base, and the void type only occurs as a procedure argument or result.", "quantifier": "all texts", "why_tests_cant": "all texts", "anchors": ["rpcgen/src/parser.rs: identifier, enum_body, struct_body, case_spec, constant", "rpcgen/src/keyword.rs: xdr_reserved"]}
{"id": "C35", "title": "files without definitions are accepted", "statement": "A text consisting only of white space and comments parses to the empty definition list.", "quantifier": "all white space/comment texts", "why_tests_cant": "all such texts", "anchors": ["rpcgen/src/parser.rs: specification"]}
{"id": "C36", "title": "any identifier can be used as a type name", "statement": "A declaration `T x;` parses to a variable of type T for every identifier T that is not an XDR keyword.", "quantifier": "all identifiers", "why_tests_cant": "infinitely many identifiers; the failing ones share a prefix", "anchors": ["rpcgen/src/parser.rs: declaration"]}
{"id": "C37", "title": "built-in types are accepted next to punctuation", "statement": "A built-in type is recognised whatever token follows it, e.g. `int*p;` and `int f(int) = 1;` parse like their spaced forms.", "quantifier": "all built-in types and positions", "why_tests_cant": "all positions", "anchors": ["rpcgen/src/parser.rs: type_specifier, procedure"]}
{"id": "C38", "title": "numeric constants denote their value", "statement": "A decimal, hexadecimal or octal constant in the text evaluates to its positional value when it fits the requested integer type and to an error otherwise (never to a wrapped value).", "quantifier": "all digit strings, all target types", "why_tests_cant": "all digit strings", "anchors": ["rpcgen/src/parser.rs: constant, TryFrom<&Constant>"]}
{"id": "C39", "title": "layout is irrelevant", "statement": "Where comments and white space are allowed by the grammar, their content never changes the parsed definitions.", "quantifier": "all texts, all comments and white space", "why_tests_cant": "all layouts", "anchors": ["rpcgen/src/parser.rs: comment0"]}
{"id": "C40", "title": "name resolution: constants first, first definition wins", "statement": "Resolving an identifier used as a value yields the value of the first constant of that name, otherwise of the first enum member of that name in definition order, following identifier references, otherwise NotFountIdentifier.", "quantifier": "all definition lists and names", "why_tests_cant": "all shadowing patterns", "anchors": ["rpcgen/src/gen_code.rs: Context::resolve_name, resolve_const_value, resolve_enum_value"]}
{"id": "C41", "title": "generation terminates", "statement": "gen_code returns for every parsed definition list.", "quantifier": "all definition lists", "why_tests_cant": "cyclic definitions give infinite recursion", "anchors": ["rpcgen/src/gen_code.rs: Context::resolve_name, resolve_type_token"]}
{"id": "C42", "title": "generation never panics", "statement": "gen_code never panics on a parsed definition list; unsupported input is an Err.", "quantifier": "all definition lists and configurations", "why_tests_cant": "panics need particular inputs", "anchors": ["rpcgen/src/gen_code.rs: convert_struct_token, convert_union_token, upper_camel_case_ident, snake_case_ident"]}
{"id": "C43", "title": "default mode: enum members get their XDR value on the wire", "statement": "In default mode every member of a generated enum is serialized as its XDR value and that value is read back as the member.", "quantifier": "all enum definitions, all members", "why_tests_cant": "all value sets, gaps and orders", "anchors": ["rpcgen/src/gen_code.rs: convert_enum_token"]}
{"id": "C44", "title": "std-trait mode: AsRef/TryFrom are inverse", "statement": "With --use-std-trait, as_ref of a member is its XDR value, try_from of that value is the member and every other i32 is rejected.", "quantifier": "all enum definitions with distinct values, all i32", "why_tests_cant": "2^32 inputs per enum", "anchors": ["rpcgen/src/gen_code.rs: convert_enum_token"]}
{"id": "C45", "title": "indexer mode: enum values", "statement": "With --use-indexer each member is written as its XDR value and read back, and words that are no member's value are rejected.", "quantifier": "all enum definitions, all words", "why_tests_cant": "all words", "anchors": ["rpcgen/src/gen_code.rs: convert_enum_token", "serde-xdr-derive/src/lib.rs: xdr_indexer"]}
{"id": "C46", "title": "default mode: union arms get their XDR discriminant", "statement": "In default mode each arm of a generated union is serialized with its case value as discriminant and read back from it.", "quantifier": "all union definitions over int/enum/bool discriminants", "why_tests_cant": "all case value sets", "anchors": ["rpcgen/src/gen_code.rs: convert_union_token, convert_case_token"]}
{"id": "C47", "title": "indexer mode: unions", "statement": "With --use-indexer/--use-extra-trait every value of a generated union (including its default arm) is written with its case value as discriminant, the arm's RFC encoding follows, and it is read back.", "quantifier": "all union definitions, all values", "why_tests_cant": "all unions and values", "anchors": ["rpcgen/src/gen_code.rs: convert_union_token, convert_case_token", "serde-xdr-derive/src/lib.rs: xdr_indexer"]}
{"id": "C48", "title": "union mode: unions", "statement": "With --use-union every value of a generated union (including its default arm) is written as its discriminant followed by the arm's RFC encoding, and it is read back.", "quantifier": "all union definitions, all values", "why_tests_cant": "all unions and values", "anchors": ["rpcgen/src/gen_code.rs: convert_union_token, convert_case_token", "serde-xdr-derive/src/lib.rs: xdr_union"]}
{"id": "C49", "title": "struct layout", "statement": "A generated struct has one field per declaration, in declaration order, whose type and serde attribute give the RFC encoding of the declared XDR type.", "quantifier": "all struct definitions", "why_tests_cant": "all declarations and orders", "anchors": ["rpcgen/src/gen_code.rs: convert_struct_token, convert_type_token"]}
{"id": "C50", "title": "typedefs are expanded faithfully", "statement": "With typedef removal (the command line tool's setting) a use of a typedef name has the same wire format as the declaration it stands for, through any chain of typedefs.", "quantifier": "all definition lists, chains and uses", "why_tests_cant": "all chains", "anchors": ["rpcgen/src/gen_code.rs: resolve_type_token, convert_type_token"]}
{"id": "C51", "title": "upper camel case conversion", "statement": "upper_camel_case is idempotent, removes every underscore from names, leaves the letters otherwise unchanged up to case, and never starts with a lower-case letter.", "quantifier": "all identifiers", "why_tests_cant": "all strings", "anchors": ["rpcgen/src/gen_code.rs: upper_camel_case, capitalize"]}
{"id": "C52", "title": "snake case conversion", "statement": "snake_case is idempotent, its result has no upper-case letter, it is the identity on names without upper-case letters, and removing underscores and case from the result gives the same word as for the input.", "quantifier": "all identifiers", "why_tests_cant": "all strings", "anchors": ["rpcgen/src/gen_code.rs: snake_case, with_underscore"]}
{"id": "C53", "title": "constants are emitted with their value", "statement": "Every constant definition is emitted, in order, as a u32 constant when its value fits and as u64 when it does not, with exactly its value; a value fitting neither is an Err.", "quantifier": "all constant definitions", "why_tests_cant": "all digit strings", "anchors": ["rpcgen/src/gen_code.rs: constants_token, convert_value_token"]}
{"id": "C54", "title": "command line flags select consistent modes", "statement": "For every combination of flags the resulting configuration enables at most one enum mode and at most one union mode and typedef removal; --use-std-trait has priority over --use-indexer for enums and --use-union over the indexer flags for unions.", "quantifier": "all flag combinations", "why_tests_cant": "finite but not covered by any test", "anchors": ["rpcgen/src/main.rs: main"]}
{"id": "C55", "title": "one item per definition, in order", "statement": "The generated types are, in order, exactly those of the type definitions (typedefs contribute an alias only when typedef removal is off); programs and line comments contribute nothing.", "quantifier": "all definition lists", "why_tests_cant": "all lists", "anchors": ["rpcgen/src/gen_code.rs: setup_context, types_token"]}
{"id": "C56", "title": "end to end: generated code speaks the XDR protocol it was generated from", "statement": "For every definition list in the supported subset, and every XDR value of a defined type, the Rust type generated by the command line tool has a value that to_bytes encodes as the RFC 4506 encoding of the XDR value and from_bytes reads back.", "quantifier": "all supported definition lists, types and values", "why_tests_cant": "all protocols and values", "anchors": ["rpcgen/src/gen_code.rs: gen_code", "serde-xdr/src/ser.rs: to_bytes", "serde-xdr/src/de.rs: from_bytes"]}
{"id": "C57", "title": "distinct XDR names give distinct Rust names", "statement": "Two different XDR identifiers never collide after case conversion.", "quantifier": "all pairs of identifiers", "why_tests_cant": "all pairs", "anchors": ["rpcgen/src/gen_code.rs: upper_camel_case, snake_case"]}
{"id": "C58", "title": "field names are usable in Rust", "statement": "Every struct field is emitted under an identifier that is not a bare Rust keyword.", "quantifier": "all identifiers", "why_tests_cant": "infinitely many names", "anchors": ["rpcgen/src/gen_code.rs: convert_struct_token", "rpcgen/src/keyword.rs: rust_reserved"]}
{"id": "C59", "title": "decoding whole XDR units never panics", "statement": "from_bytes on an input whose length is a multiple of four returns Ok or Err but never panics, for every type whose discriminant lookup functions are total and whose derived variants have at most nine fields.", "quantifier": "all such types, all inputs of whole units", "why_tests_cant": "all byte strings", "anchors": ["serde-xdr/src/de.rs: read_bytes", "serde-xdr/src/de.rs: from_bytes"]}
{"id": "C60", "title": "concatenated files", "statement": "If two texts parse, their concatenation with any white space and comments in between parses to the concatenation of their definitions (at least one of them having a definition).", "quantifier": "all pairs of texts and separators", "why_tests_cant": "all pairs of texts", "anchors": ["rpcgen/src/parser.rs: specification"]}
{"id": "C61", "title": "several versions in a program", "statement": "A program whose version blocks are separated by white space parses to the program with those versions, as RFC 5531 section 12.2 allows.", "quantifier": "all programs", "why_tests_cant": "depends on layout between all tokens", "anchors": ["rpcgen/src/parser.rs: program", "rpcgen/src/parser.rs: version"]}
{"id": "C62", "title": "the accepted language is unambiguous", "statement": "A text denotes at most one definition list.", "quantifier": "all texts", "why_tests_cant": "all texts", "anchors": ["rpcgen/src/parser.rs: parse"]}
{"id": "C63", "title": "declared maximum sizes are enforced", "statement": "A value of a generated type never holds a string, opaque or array longer than the maximum declared in the interface file: encoding and decoding reject it.", "quantifier": "all definition lists, all values", "why_tests_cant": "all values beyond all maxima", "anchors": ["rpcgen/src/gen_code.rs: convert_type_token", "serde-xdr/src/de.rs: read_string, read_bytes"]}
{"id": "C64", "title": "programs and % lines generate nothing", "statement": "Removing program definitions and pass-through lines from a definition list does not change the outcome of gen_code.", "quantifier": "all definition lists and configurations", "why_tests_cant": "all lists", "anchors": ["rpcgen/src/gen_code.rs: setup_context, gen_code"]}
{"id": "C65", "title": "the order of definitions does not matter", "statement": "Reordering the definitions of a file without redefinitions yields the same imports, constants and types up to order.", "quantifier": "all definition lists and permutations", "why_tests_cant": "all permutations", "anchors": ["rpcgen/src/gen_code.rs: Context, setup_context, gen_code"]}
{"id": "C66", "title": "a flag changes only the items it is about", "statement": "Two runs of the tool that differ in flags give the same constants, the same structs unless --use-std-trait differs, the same enums unless an enum flag differs and the same unions unless a union flag differs.", "quantifier": "all files and pairs of flag sets", "why_tests_cant": "all files", "anchors": ["rpcgen/src/gen_code.rs: convert_struct_token, convert_enum_token, convert_union_token", "rpcgen/src/main.rs: main"]}
{"id": "C67", "title": "emitted code imports what it uses", "statement": "Every item that derives or implements a trait of the run-time library comes with the imports this needs, and derives it exactly if it implements it.", "quantifier": "all files and flag sets", "why_tests_cant": "all files", "anchors": ["rpcgen/src/gen_code.rs: gen_code, use_token"]}
{"id": "C68", "title": "Default of generated enums and unions", "statement": "The Default of a generated enum is a member of least value; that of a generated union is its default arm if there is one and otherwise an arm of least case value.", "quantifier": "all enum and union definitions", "why_tests_cant": "all value sets and orders", "anchors": ["rpcgen/src/gen_code.rs: convert_enum_token, convert_union_token"]}
{"id": "C69", "title": "type names are usable in Rust", "statement": "No generated type is named by a Rust keyword.", "quantifier": "all definition lists", "why_tests_cant": "infinitely many names", "anchors": ["rpcgen/src/gen_code.rs: upper_camel_case_ident"]}
{"id": "C70", "title": "constant names are usable in Rust", "statement": "No generated constant is named by a Rust keyword.", "quantifier": "all definition lists", "why_tests_cant": "infinitely many names", "anchors": ["rpcgen/src/gen_code.rs: constants_token"]}
{"id": "C71", "title": "generated types have a finite size", "statement": "No generated type contains itself except behind a pointer, as rustc requires (E0072).", "quantifier": "all definition lists", "why_tests_cant": "all recursion patterns", "anchors": ["rpcgen/src/gen_code.rs: convert_struct_token, convert_union_token"]}
{"id": "C72", "title": "numbers can be case labels", "statement": "A union whose case labels are numbers, as RFC 4506 section 4.15 allows for int discriminants, yields a usable enum.", "quantifier": "all union definitions", "why_tests_cant": "all unions", "anchors": ["rpcgen/src/gen_code.rs: convert_case_token"]}
{"id": "C73", "title": "default mode: words of no member are rejected", "statement": "In default mode decoding a generated enum fails for every word that is not the value of a member.", "quantifier": "all enum definitions, all words", "why_tests_cant": "2^32 words per enum", "anchors": ["rpcgen/src/gen_code.rs: convert_enum_token", "serde-xdr/src/de.rs: deserialize_enum"]}
{"id": "C74", "title": "decoding a generated type terminates", "statement": "from_bytes at a generated type returns on every input.", "quantifier": "all definition lists, types and inputs", "why_tests_cant": "all recursive definitions and inputs", "anchors": ["rpcgen/src/gen_code.rs: convert_struct_token", "serde-xdr/src/de.rs: from_bytes"]}
{"id": "C75", "title": "decoding whole units as a generated type never panics", "statement": "from_bytes at a generated type never panics on an input whose length is a multiple of four.", "quantifier": "all definition lists, configurations, types and inputs", "why_tests_cant": "all protocols and byte strings", "anchors": ["rpcgen/src/gen_code.rs: gen_code", "serde-xdr/src/de.rs: from_bytes"]}
{"id": "C76", "title": "encoding a value of a generated type never panics", "statement": "to_bytes of a value of a generated type returns Ok or Err and never panics.", "quantifier": "all definition lists, configurations, types and values", "why_tests_cant": "all protocols and values", "anchors": ["rpcgen/src/gen_code.rs: convert_union_token", "serde-xdr/src/ser.rs: to_bytes"]}
{"id": "C77", "title": "programs generated with different flags understand each other", "statement": "A value that code generated with one set of flags decodes is written by it as bytes that the code generated from the same file with any other set of flags reads, writes back identically, and that the first reads as the same value.", "quantifier": "all interface files, pairs of flag sets, types and inputs", "why_tests_cant": "all protocols and values for all pairs of flags", "anchors": ["rpcgen/src/gen_code.rs: gen_code", "rpcgen/src/main.rs: main"]}
{"id": "C78", "title": "a decoded value is a value of the protocol", "statement": "Every value that from_bytes yields at a generated type stands for a value that the interface file describes: to_bytes writes it as the RFC 4506 encoding of that value.", "quantifier": "all interface files, flag sets, types and inputs", "why_tests_cant": "all protocols and byte strings", "anchors": ["rpcgen/src/gen_code.rs: gen_code", "serde-xdr/src/de.rs: from_bytes", "serde-xdr/src/ser.rs: to_bytes"]}
{"id": "C79", "title": "parsing undoes printing", "statement": "A definition list that some text denotes is returned by parse for its standard text (single blanks, no comments), so no information is lost between text and definitions and different lists have different standard texts.", "quantifier": "all definition lists that can be written", "why_tests_cant": "infinitely many definition lists of unbounded nesting", "anchors": ["rpcgen/src/parser.rs: parse"]}
{"id": "C80", "title": "every well-formed definition list can be written", "statement": "For every definition list whose identifiers, constants and bodies are well-formed there is a text that parse reads as this list.", "quantifier": "all definition lists", "why_tests_cant": "existence of a text cannot be refuted by testing", "anchors": ["rpcgen/src/parser.rs: type_specifier", "rpcgen/src/parser.rs: declaration"]}
{"id": "C81", "title": "what a generated type decodes it can write back", "statement": "If from_bytes at a generated type yields a value from some bytes then to_bytes of this value yields bytes of the same length from which from_bytes yields the same value: reading and writing normalises an input and never loses the value.", "quantifier": "all definition lists, configurations, types and inputs", "why_tests_cant": "all protocols and byte strings", "anchors": ["rpcgen/src/gen_code.rs: gen_code", "serde-xdr/src/de.rs: from_bytes", "serde-xdr/src/ser.rs: to_bytes"]}
{"id": "C82", "title": "a struct that contains itself carries no data", "statement": "A generated struct with a field of its own type, without the optional mark, is neither decoded from any input nor encoded from any value.", "quantifier": "all definition lists, configurations, inputs and values", "why_tests_cant": "a statement about all inputs", "anchors": ["rpcgen/src/gen_code.rs: convert_struct_token", "serde-xdr/src/de.rs: from_bytes"]}
{"id": "C83", "title": "types of a fixed size consume exactly this size", "statement": "If all values of a type of the interface file have the same encoded size by RFC 4506 then from_bytes at the generated type succeeds only on inputs of exactly this size.", "quantifier": "all definition lists, configurations, types and inputs", "why_tests_cant": "all fixed-size types and all inputs of other sizes", "anchors": ["rpcgen/src/gen_code.rs: convert_type_token", "serde-xdr/src/de.rs: from_bytes"]}
{"id": "C84", "title": "NotEnoughData gives a lower bound of the missing bytes", "statement": "When from_bytes fails with NotEnoughData(k), k is positive, and appending fewer than k bytes, whatever they are, gives NotEnoughData reduced by the number of bytes appended: a reader may safely wait for k more bytes.", "quantifier": "all types, inputs and continuations", "why_tests_cant": "all byte strings and all their extensions", "anchors": ["serde-xdr/src/de.rs: read_bytes", "serde-xdr/src/de.rs: from_bytes"]}
{"id": "C85", "title": "other errors are final and TrailingData counts the rest", "statement": "Errors of from_bytes other than NotEnoughData and TrailingData stay the same whatever is appended to the input; TrailingData(k) is returned exactly when the input is an accepted input followed by k > 0 bytes.", "quantifier": "all types, inputs and continuations", "why_tests_cant": "all byte strings and all their extensions", "anchors": ["serde-xdr/src/de.rs: from_bytes"]}
{"id": "C86", "title": "beginnings of accepted inputs are incomplete, not wrong", "statement": "from_bytes of a proper beginning of an accepted input returns NotEnoughData.", "quantifier": "all types, accepted inputs and cut positions", "why_tests_cant": "all byte strings and cut positions", "anchors": ["serde-xdr/src/de.rs: read_bytes, read_string", "serde-xdr/src/de.rs: from_bytes"]}
{"id": "C87", "title": "the derive macros expand for every enum", "statement": "derive(XdrIndexer) and derive(XdrUnion) expand without a panic for every enum.", "quantifier": "all enum definitions", "why_tests_cant": "infinitely many enums; a failing macro does not compile, so it cannot be in a test", "anchors": ["serde-xdr-derive/src/lib.rs: xdr_indexer", "serde-xdr-derive/src/lib.rs: xdr_union"]}
{"id": "C88", "title": "generated code is accepted by the Rust compiler", "statement": "The code that the generator emits for a valid protocol file is accepted by the Rust compiler.", "quantifier": "all protocol texts and command-line flags", "why_tests_cant": "infinitely many protocol files; a generated file that does not compile cannot be part of a test suite", "anchors": ["rpcgen/src/gen_code.rs: gen_code", "rpcgen/src/gen_code.rs: convert_type_token", "rpcgen/src/gen_code.rs: convert_union_token", "rpcgen/src/main.rs: main"]}
{"id": "C89", "title": "Default::default() of a generated type returns", "statement": "The Default::default function of every type in a generated file that compiles returns a value.", "quantifier": "all definition lists, configurations and types", "why_tests_cant": "all recursive definitions", "anchors": ["rpcgen/src/gen_code.rs: convert_struct_token", "rpcgen/src/gen_code.rs: convert_enum_token", "rpcgen/src/gen_code.rs: convert_union_token"]}
{"id": "C90", "title": "a default value can be written and read back", "statement": "to_bytes writes the Default value of every generated type and from_bytes reads it back unchanged.", "quantifier": "all definition lists, configurations and types", "why_tests_cant": "all definitions and flag sets", "anchors": ["rpcgen/src/gen_code.rs: convert_union_token", "rpcgen/src/gen_code.rs: convert_struct_token", "serde-xdr/src/ser.rs: to_bytes", "serde-xdr/src/de.rs: from_bytes"]}
{"id": "C91", "title": "every Deserialize impl reads locally and in whole units", "statement": "Whatever Deserialize impl from_bytes is called with, derived or written by hand: the bytes it takes for a value are a multiple of four, and the value does not depend on the bytes that follow.", "quantifier": "all Deserialize impls that pass on the deserializer's errors, all inputs", "why_tests_cant": "all impls a user may write and all byte strings", "anchors": ["serde-xdr/src/de.rs: impl de::Deserializer", "serde-xdr/src/de.rs: impl de::SeqAccess", "serde-xdr/src/de.rs: impl de::MapAccess", "serde-xdr/src/de.rs: impl de::EnumAccess"]}
{"id": "C92", "title": "whole units make the decoder panic only in the impl itself", "statement": "from_bytes with a Deserialize impl that does not panic itself does not panic on an input whose length is a multiple of four.", "quantifier": "all Deserialize impls that pass on the deserializer's errors, all inputs", "why_tests_cant": "all impls a user may write and all byte strings", "anchors": ["serde-xdr/src/de.rs: impl de::Deserializer", "serde-xdr/src/de.rs: from_bytes"]}
{"id": "C93", "title": "a Deserialize impl gets back what a Serialize impl said", "statement": "If a Deserialize impl, handed the values of a Serialize impl one after the other in serde's data model without any encoding, asks for the kinds it is handed and returns a value, then it returns the same value from the bytes that to_bytes makes of them.", "quantifier": "all Serialize and Deserialize impls, all values in range", "why_tests_cant": "all pairs of impls a user may write", "anchors": ["serde-xdr/src/ser.rs: impl ser::Serializer", "serde-xdr/src/de.rs: impl de::Deserializer"]}
{"id": "C94", "title": "errors mean the same for every Deserialize impl", "statement": "Whatever Deserialize impl from_bytes is called with: NotEnoughData(k) is a lower bound of the missing bytes; TrailingData(k) is returned exactly for an accepted input followed by k > 0 bytes; other errors stay when bytes are appended; a proper beginning of an accepted input gives NotEnoughData, or panics within padding.", "quantifier": "all Deserialize impls that pass on the deserializer's errors, all inputs and continuations", "why_tests_cant": "all impls a user may write and all byte strings", "anchors": ["serde-xdr/src/de.rs: from_bytes", "serde-xdr/src/de.rs: impl de::Deserializer"]}
{"id": "C95", "title": "the input bounds the decoded data", "statement": "The dynamically sized data of a decoded value, counted over all depths (four bytes for every sequence element and map entry, one for every byte of a string or of variable-length opaque data), is smaller than the input it was decoded from: a length prefix cannot make a small input into a large value.", "quantifier": "all types, inputs and values", "why_tests_cant": "all byte strings at all types; a sequence of 2^32-1 elements does not fit in a test", "anchors": ["serde-xdr/src/de.rs: deserialize_seq", "serde-xdr/src/de.rs: deserialize_map", "rpcgen/src/gen_code.rs: convert_struct_token"]}
{"id": "C96", "title": "the type bounds the nesting of calls", "statement": "The number of nested deserialize calls that from_bytes makes is bounded by the type and does not grow with the input, so that no input exhausts the stack.", "quantifier": "all types and inputs", "why_tests_cant": "all inputs; a stack overflow aborts the test process", "anchors": ["serde-xdr/src/de.rs: deserialize_option", "rpcgen/src/gen_code.rs: convert_struct_token"]}
{"id": "C97", "title": "the printed text reads back as the generated items", "statement": "If the definitions of a protocol file are in the supported subset, the text that rpcgen prints is a Rust file, and reading it with Rust's lexical rules and item syntax gives exactly the generated items, attributes and trait impls in order: no token is split, joined or dropped by printing. For every file that rpcgen accepts at all, the text is at least a sequence of Rust tokens with balanced brackets. Outside the subset the text need not be a Rust file.", "quantifier": "all protocol texts and command-line flags", "why_tests_cant": "infinitely many generated files", "anchors": ["rpcgen/src/gen_code.rs: gen_code", "rpcgen/src/gen_code.rs: convert_union_token", "rpcgen/src/main.rs: main"]}
{"id": "C98", "title": "rpcgen prints all of the code or nothing", "statement": "When rpcgen ends, either its status is 0 and its output is the whole generated text, exactly when the file is readable UTF-8 that the grammar accepts and generation succeeds, or its output is empty and its status is 1 (unreadable, not UTF-8, not a protocol file, unsupported construct) or 101 (panic). It ends for every file whose definitions do not refer to themselves; it does not end regularly for some that do.", "quantifier": "all file contents and command-line flags", "why_tests_cant": "all byte strings as file contents", "anchors": ["rpcgen/src/main.rs: main", "rpcgen/src/parser.rs: parse", "rpcgen/src/gen_code.rs: gen_code"]}
{"id": "C99", "title": "the types that the printed text defines speak the protocol", "statement": "If the definitions of a protocol file are in the supported subset, rpcgen ends with status 0 and prints Rust text; the types that this text defines, by the meaning of its derive macros, attributes, constants, imports and of the functions in its impls, serialize every value of every defined struct, union and enum as its RFC 4506 encoding and deserialize that encoding as the same value.", "quantifier": "all protocol texts, command-line flags and XDR values", "why_tests_cant": "infinitely many protocol files and values; a test would have to compile the output", "anchors": ["rpcgen/src/main.rs: main", "rpcgen/src/gen_code.rs: gen_code", "rpcgen/src/gen_code.rs: convert_enum_token", "rpcgen/src/gen_code.rs: convert_union_token", "serde-xdr/src/ser.rs: to_bytes", "serde-xdr/src/de.rs: from_bytes"]}
{"id": "C100", "title": "an impl that catches an error stays in step with the input", "statement": "If a Deserialize impl catches the error of an element, a field or a whole value of from_bytes and goes on, the decoder stands at a multiple of four bytes, what follows the element is read at its own place, and no input that is a whole number of four-byte units makes it panic.", "quantifier": "all Deserialize impls that may catch errors anywhere, all inputs", "why_tests_cant": "all impls and all inputs", "anchors": ["serde-xdr/src/de.rs: read_string", "serde-xdr/src/de.rs: next_element_seed", "serde-xdr/src/de.rs: next_value_seed"]}
{"id": "C101", "title": "programs of an extended protocol understand those of the old one", "statement": "If a protocol file in the supported subset is extended to another one (enums get members, unions get cases, declared maxima grow, types and constants are added, members, fields and types get other names, typedefs are introduced or replaced by what they stand for, while numbers, lengths, default arms and the types of fields stay), then every value of an old type is written as the same bytes by the program generated from the old file and the one generated from the new file, with whatever flags each of them was generated, and each reads what the other wrote; the same holds for whatever the old program has decoded.", "quantifier": "all pairs of protocol texts, command-line flags and XDR values", "why_tests_cant": "infinitely many pairs of protocol files and values; needs two generated programs", "anchors": ["rpcgen/src/gen_code.rs: gen_code", "rpcgen/src/gen_code.rs: convert_enum_token", "rpcgen/src/gen_code.rs: convert_union_token", "serde-xdr/src/ser.rs: to_bytes", "serde-xdr/src/de.rs: from_bytes"]}
{"id": "C102", "title": "appended definitions leave the code of the others as it is", "statement": "If definitions whose names the file neither defines nor uses are appended to a protocol file and code is generated, then code is also generated without them, and the former consists of the latter's constants and types, in order and unchanged, followed by others.", "quantifier": "all pairs of protocol texts and command-line flags", "why_tests_cant": "infinitely many pairs of protocol files", "anchors": ["rpcgen/src/gen_code.rs: gen_code", "rpcgen/src/gen_code.rs: setup_context", "rpcgen/src/gen_code.rs: is_enum_type", "rpcgen/src/parser.rs: type_specifier"]}
{"id": "C103", "title": "an old program never mistakes a message of an extended protocol", "statement": "If a protocol file is extended to another one as in the property about extended protocols, and the program generated from the old file decodes the encoding of a value of the new protocol as one of its types, then it either obtains that very value, which is then a value of the old protocol, or it reports an error; it never obtains another value.", "quantifier": "all pairs of protocol texts, command-line flags and XDR values", "why_tests_cant": "infinitely many pairs of protocol files and values; needs two generated programs", "anchors": ["rpcgen/src/gen_code.rs: gen_code", "rpcgen/src/gen_code.rs: convert_enum_token", "rpcgen/src/gen_code.rs: convert_union_token", "serde-xdr/src/de.rs: from_bytes"]}
{"id": "C104", "title": "the accepted inputs are the encodings, but for four liberties", "statement": "The inputs from which from_bytes at a generated type yields a value are exactly the RFC 4506 encodings of values of the interface file (declared maxima aside), except that padding bytes may have any content, any non-zero word may stand for TRUE or for the presence of an optional value, the unused upper bits of chars and shorts may have any content and, with the indexer flag, a number of no member may stand for the member with the lowest number; the discriminant of a union is taken literally unless the union flag is given. The value yielded is the one that the input is read as under these rules.", "quantifier": "all interface files, flag sets, types and inputs", "why_tests_cant": "all protocols and byte strings", "anchors": ["rpcgen/src/gen_code.rs: gen_code", "serde-xdr/src/de.rs: impl de::Deserializer", "serde-xdr/src/de.rs: from_bytes", "serde-xdr-derive/src/lib.rs: xdr_indexer", "serde-xdr-derive/src/lib.rs: xdr_union"]}
{"id": "C105", "title": "the flags do not change which inputs are accepted", "statement": "Two programs generated from the same interface file with different flags accept the same inputs.", "quantifier": "all interface files, pairs of flag sets, types and inputs", "why_tests_cant": "all protocols and byte strings for all pairs of flags", "anchors": ["rpcgen/src/gen_code.rs: gen_code", "serde-xdr/src/de.rs: from_bytes", "serde-xdr-derive/src/lib.rs: xdr_indexer", "serde-xdr-derive/src/lib.rs: xdr_union"]}
{"id": "C106", "title": "an input means the same to all programs that accept it", "statement": "If two programs generated from the same interface file with different flags both accept an input, whoever made it, then they obtain the same value of the protocol from it.", "quantifier": "all interface files, pairs of flag sets, types and inputs", "why_tests_cant": "all protocols and byte strings for all pairs of flags", "anchors": ["rpcgen/src/gen_code.rs: gen_code", "serde-xdr/src/de.rs: from_bytes", "serde-xdr-derive/src/lib.rs: xdr_indexer", "serde-xdr-derive/src/lib.rs: xdr_union"]}
{"id": "C107", "title": "decoding requests a fixed amount of memory per byte of input", "statement": "The heap memory that from_bytes requests while it decodes a value, whether it succeeds or not, is at most serde's preallocation limit plus sixteen times the size of the largest type involved, for every byte of the input, plus the size of the opaque data that the type asks for before it looks at the content. This holds for types whose vectors have elements that take input and whose boxes hold something that takes input of its own or are the content of an optional value. In particular it holds for every type of a generated program whose definitions do not contain themselves directly. The factor is real: there is a generated type and inputs of any length of which every four bytes cost the whole limit.", "quantifier": "all such types and all inputs", "why_tests_cant": "all byte strings; the large requests do not fit in a test", "anchors": ["serde-xdr/src/de.rs: size_hint", "serde-xdr/src/de.rs: deserialize_seq", "serde-xdr/src/opaque.rs: enumerate_u8", "rpcgen/src/gen_code.rs: convert_struct_token"]}
{"id": "C108", "title": "NotEnoughData says how many bytes to read from a stream", "statement": "A program that reads messages from a stream, starting with no bytes, and on NotEnoughData(k) takes k further bytes from the stream and calls from_bytes again, ends with the value of the message and has taken no byte of what follows it. The same holds for any number of messages one after the other.", "quantifier": "all types, all accepted messages, all bytes that follow", "why_tests_cant": "all messages and all positions at which reading stops", "anchors": ["serde-xdr/src/de.rs: read", "serde-xdr/src/de.rs: read_string", "serde-xdr/src/de.rs: read_bytes", "serde-xdr/src/de.rs: from_bytes"]}
{"id": "C109", "title": "the time to read an interface file grows polynomially with its length", "statement": "There is a polynomial such that parse, on every text, successful or not, calls nom's elementary matchers at most as often as the polynomial of the length of the text.", "quantifier": "all texts and all polynomials", "why_tests_cant": "a statement about growth; the texts that break it are small but take longer than any test", "anchors": ["rpcgen/src/parser.rs: parse", "rpcgen/src/parser.rs: declaration", "rpcgen/src/parser.rs: type_specifier", "rpcgen/src/parser.rs: struct_body"]}
{"id": "C110", "title": "the time to generate code grows polynomially with the definitions", "statement": "There is a polynomial such that gen_code, on every list of definitions on which it ends, successfully or not, looks up names at most as often as the polynomial of the number of constants, enum members and case labels.", "quantifier": "all lists of definitions, configurations and polynomials", "why_tests_cant": "a statement about growth; the files that break it are small but take longer than any test", "anchors": ["rpcgen/src/gen_code.rs: resolve_name", "rpcgen/src/gen_code.rs: resolve_const_value", "rpcgen/src/gen_code.rs: resolve_enum_value", "rpcgen/src/gen_code.rs: convert_enum_token", "rpcgen/src/gen_code.rs: convert_union_token"]}
{"id": "C111", "title": "the generated code has no more parts than the interface file", "statement": "The constants, type aliases, enum and union variants and struct fields of the code that gen_code generates are at most as many as the constants, typedefs, enum members, case labels, default arms and struct members of the definitions.", "quantifier": "all lists of definitions and flags", "why_tests_cant": "all numbers as values of enum members; the outputs that break it do not fit in memory", "anchors": ["rpcgen/src/gen_code.rs: convert_enum_token", "rpcgen/src/gen_code.rs: convert_union_token", "rpcgen/src/gen_code.rs: convert_struct_token", "rpcgen/src/gen_code.rs: gen_code"]}
{"id": "C112", "title": "a message can be read as any other Rust type of the same XDR data", "statement": "Suppose a value of one Rust type can be read as a value of another by RFC 4506: newtypes, boxes and names by their content; structs, tuples and arrays by their components; an enum as its number followed by the fields or as an enum of other names and more variants; a two-valued enum as bool; a vector of at most one element or a two-armed union as Option; char, floats and signed numbers by their bits; a 64-bit number as two 32-bit ones; text as bytes; a vector of pairs with distinct keys as a map; and all of these inside each other. Then whatever to_bytes writes for the first value is what it writes for the second, from_bytes at the second type gives the second value, and every message of any program that from_bytes reads as the first value at the first type it reads as the second at the second.", "quantifier": "all types, values and messages", "why_tests_cant": "all pairs of types, nested to any depth", "anchors": ["serde-xdr/src/ser.rs: Serializer", "serde-xdr/src/de.rs: Deserializer", "README.md: Data Types"]}
{"id": "C113", "title": "Rust types of the same XDR data read the same messages", "statement": "If a value of one Rust type can be read as a value of another in the sense of RFC 4506 (C112), then from_bytes reads exactly the same messages as the one value and as the other.", "quantifier": "all types, values and messages", "why_tests_cant": "all messages, and all pairs of types nested to any depth", "anchors": ["serde-xdr/src/de.rs: deserialize_bool", "serde-xdr/src/de.rs: deserialize_option", "serde-xdr/src/de.rs: deserialize_enum", "serde-xdr/src/de.rs: variant_seed"]}
{"id": "C114", "title": "the error of the decoder is the first thing that is wrong", "statement": "from_bytes returns an error for exactly the following inputs, and it is the error named: going from left to right, a number for which bytes are missing, text or bytes shorter than their length, opaque data of which a four-byte unit is missing (NotEnoughData with the bytes missing there), a char that is no character or a negative variant number (Convert), text that is not UTF-8, whether or not its padding is there (Encoding), a variant number that no variant has, a number that TryFrom refuses, a 128-bit number (Custom); or a complete value followed by further bytes (TrailingData). No input has two errors, and none that is accepted or panics has one. Every input of a generated type that does not contain itself directly is accepted, has such an error or panics.", "quantifier": "all types and all inputs", "why_tests_cant": "all byte strings and all types, nested to any depth", "anchors": ["serde-xdr/src/de.rs: read", "serde-xdr/src/de.rs: read_char", "serde-xdr/src/de.rs: read_string", "serde-xdr/src/de.rs: read_bytes", "serde-xdr/src/de.rs: variant_seed", "serde-xdr/src/de.rs: from_bytes", "serde-xdr/src/opaque.rs: enumerate_u8", "serde-xdr/src/error.rs: Error"]}
{"id": "C115", "title": "exactly which interface files rpcgen translates", "statement": "The generator gives code for a parsed interface file exactly if all of the following holds, where a name that stands for a number is the constant of that name or, if there is none or its value does not fit, the enum member. Every constant is a name or a number from 0 to 2^64-1. The names of enums, enum members, structs, unions and case labels, and of types that are not replaced, begin with a letter when underscores are left out. Every type is one that Rust has, a name, or (typedefs being replaced) one that stands for such a type by a chain of typedefs, with array lengths below 2^64; the quadruple type and bodies written in place are not. Enum members have numbers that fit 32 bits signed; the largest such number is not among them if the tool was built with overflow checks, and, without the std-trait and indexer flags, not twice, and there is no gap of negative numbers to fill. Struct members are not void and not called self, Self, super or crate. Unions switch on int, unsigned int, bool or a name; labels have numbers that fit 32 bits unsigned, not the largest with overflow checks; a union over bool has an arm for TRUE or FALSE or a default. If typedefs are kept, none is of opaque data.", "quantifier": "all interface files, flag sets and both overflow modes", "why_tests_cant": "all files", "anchors": ["rpcgen/src/gen_code.rs: gen_code", "rpcgen/src/gen_code.rs: constants_token", "rpcgen/src/gen_code.rs: types_token", "rpcgen/src/gen_code.rs: convert_enum_token", "rpcgen/src/gen_code.rs: convert_struct_token", "rpcgen/src/gen_code.rs: convert_union_token", "rpcgen/src/gen_code.rs: convert_case_token", "rpcgen/src/gen_code.rs: resolve_type_token", "rpcgen/src/main.rs: main"]}
{"id": "C116", "title": "flags do not stop a file from being translated", "statement": "If rpcgen translates an interface file without flags then it translates it with any flags. Any two flag sets translate the same files, except for files with an enum that has members on both sides of a gap of negative numbers or two members with the number 2^31-1. If rpcgen built with overflow checks translates a file then rpcgen built without them gives the same code.", "quantifier": "all interface files and flag sets", "why_tests_cant": "all files under all pairs of flag sets and both kinds of build", "anchors": ["rpcgen/src/gen_code.rs: gen_code", "rpcgen/src/gen_code.rs: convert_enum_token", "rpcgen/src/gen_code.rs: convert_union_token", "rpcgen/src/main.rs: main"]}
{"id": "C117", "title": "exactly which interface files make rpcgen panic", "statement": "The generator takes the definitions in order, and within a definition the enum members, struct members, or the case labels by their number and then by their order in the file (FALSE before TRUE in a union over bool) and then the default arm. For a parsed interface file it panics exactly if all constants are fine and the first thing that cannot be translated is one of the following: a name of a type, enum, enum member, struct, union or case label that has no letter in front when underscores are left out; a void struct member or one called self, Self, super or crate; an enum whose members all have numbers that fit 32 bits signed but which needs a reserved variant for a negative number or has the largest number (with overflow checks, or twice); a case label with the largest 32-bit number in a tool built with overflow checks; a union over bool with neither TRUE nor FALSE nor a default. No such file is translated, and a file whose names are not circular and which is neither translated nor one of these gives an error.", "quantifier": "all interface files, flag sets and both overflow modes", "why_tests_cant": "all files, and the order in which the problems of a file are found", "anchors": ["rpcgen/src/gen_code.rs: gen_code", "rpcgen/src/gen_code.rs: types_token", "rpcgen/src/gen_code.rs: convert_enum_token", "rpcgen/src/gen_code.rs: convert_struct_token", "rpcgen/src/gen_code.rs: convert_union_token", "rpcgen/src/gen_code.rs: convert_case_token", "rpcgen/src/gen_code.rs: upper_camel_case_ident", "rpcgen/src/gen_code.rs: snake_case_ident", "rpcgen/src/main.rs: main"]}
{"id": "C118", "title": "exactly which interface files give an error, and which", "statement": "In the order in which the generator takes the parts of a parsed interface file it returns an error exactly if the first thing that cannot be translated is one of the following, and then this error: Parse for a constant, an array length or a number of an enum member or case label that is out of range when it is written in place; NotFoundIdentifier with the name for a number given by a name that nothing defines, or by a constant whose own value gives an error and which is not an enum member as well, although this constant is defined; NotSupported for the quadruple type, a body written in place, a union that switches on anything but int, unsigned int, bool or a name, and, typedefs being kept, a typedef of opaque data. An enum member that stands for another, or that is taken because the constant of its name gives an error, gives its own error. The generator never returns on exactly the files that are neither translated (C115) nor panicked on (C117) nor give one of these errors.", "quantifier": "all interface files, flag sets and both overflow modes", "why_tests_cant": "all files, and the order in which the problems of a file are found", "anchors": ["rpcgen/src/gen_code.rs: gen_code", "rpcgen/src/gen_code.rs: constants_token", "rpcgen/src/gen_code.rs: resolve_name", "rpcgen/src/gen_code.rs: resolve_const_value", "rpcgen/src/gen_code.rs: resolve_enum_value", "rpcgen/src/gen_code.rs: resolve_type_token", "rpcgen/src/gen_code.rs: convert_primitive_token", "rpcgen/src/gen_code.rs: convert_type_token", "rpcgen/src/gen_code.rs: convert_union_token", "rpcgen/src/main.rs: main"]}
{"id": "C119", "title": "the exit status of rpcgen follows from the contents of the file", "statement": "rpcgen ends with status 0 exactly if the file is UTF-8 text of the grammar whose definitions can be translated (C115); with status 101 and no output exactly if it is such text whose definitions are panicked on (C117); with status 1 and no output exactly if the file cannot be read, is not UTF-8, is not of the grammar or gives an error (C118); and it never ends exactly if it is of the grammar and none of these.", "quantifier": "all file contents, flag sets and both overflow modes", "why_tests_cant": "all byte strings as file contents", "anchors": ["rpcgen/src/main.rs: main", "rpcgen/src/parser.rs: parse", "rpcgen/src/gen_code.rs: gen_code"]}
{"id": "C120", "title": "the text of a codec error says which error it is", "statement": "Two errors of the codec with the same Display text are equal: the same kind, the same numbers and the same custom message, whatever characters the message has. NotEnoughData and TrailingData show their number as a decimal numeral without leading zeros.", "quantifier": "all errors, all messages and every table of printable characters", "why_tests_cant": "all messages, also with quotes, backslashes and escapes in them, and all pairs of errors", "anchors": ["serde-xdr/src/error.rs: Display for Error", "serde-xdr/src/error.rs: Error"]}
{"id": "C121", "title": "the text of a codec error is one line", "statement": "The Display text of an error consists of printable ASCII characters and those characters of a custom message that Unicode counts as printable; it never contains a line feed, carriage return, tab or NUL, even if a message made from received data does. Such text cannot forge lines of a log.", "quantifier": "all errors, all messages and every table of printable characters", "why_tests_cant": "all messages", "anchors": ["serde-xdr/src/error.rs: Display for Error", "serde-xdr/src/error.rs: custom"]}
{"id": "C122", "title": "what rpcgen prints on the standard error follows from the contents of the file", "statement": "rpcgen prints an error exactly if it ends with status 1. It prints Error: RpcGen(NotFountIdentifier(x)) with the name x in quotes exactly if the definitions of the file give this error for x (C118), Error: RpcGen(NotSupported) exactly if they give that one, and Error: RpcGen(TrailingData) exactly if the file is UTF-8 but not of the grammar. Each of these is one line.", "quantifier": "all file contents, names, flag sets and both overflow modes", "why_tests_cant": "all byte strings as file contents", "anchors": ["rpcgen/src/main.rs: main", "rpcgen/src/main.rs: Error", "rpcgen/src/error.rs: Error", "rpcgen/src/parser.rs: parse", "rpcgen/src/gen_code.rs: gen_code"]}
{"id": "C123", "title": "an Encoding error says where the text stops to be UTF-8", "statement": "Decoding a string whose bytes are not UTF-8 gives an Encoding error whose valid_up_to is the length of the longest beginning of the bytes that is UTF-8. Its error_len is None exactly if the bytes can be continued to valid UTF-8, so that a caller can tell text that was cut off from text that is wrong; otherwise it is one to three and stays within the bytes of the string.", "quantifier": "all byte strings as text, whatever follows them", "why_tests_cant": "all byte strings, cut at every place", "anchors": ["serde-xdr/src/de.rs: read_string", "serde-xdr/src/error.rs: From<Utf8Error> for Error"]}
