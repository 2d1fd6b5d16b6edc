{"id": "C01", "title": "Literal types accept exactly the literal value", "statement": "Validating a value against a rule whose definition is a literal (true/false, integer, float, text, byte string) succeeds if and only if the value is of the same kind and equal to the literal; integers never match floats, text never matches bytes, and floats compare by bit pattern (0.0 does not match -0.0, a NaN matches only the identical NaN). Otherwise the result is a Mismatch error.", "quantifier": "every literal and every data value of any size or nesting", "why_tests_cant": "the value space is infinite; equality on nested/foreign kinds can only be sampled", "anchors": ["src/validate.rs: validate_literal, From<&Literal> for Value", "src/value.rs: Value"]}
{"id": "C02", "title": "Prelude types accept exactly their class of values", "statement": "any accepts every value; nil only null; bool only booleans; int exactly the integers; uint exactly integers >= 0; nint exactly integers < 0; float exactly floats; tstr exactly text; bstr exactly byte strings. A rejection is always a Mismatch error.", "quantifier": "every prelude type and every data value", "why_tests_cant": "a class boundary must hold for every integer and every value kind", "anchors": ["src/validate.rs: validate_prelude_type"]}
{"id": "C03", "title": "Integer ranges are exact at both ends", "statement": "With integer endpoints a and b, a..b accepts exactly integers n with a <= n <= b and a...b exactly a <= n < b; every other value is rejected with Mismatch (an empty range rejects everything).", "quantifier": "all integer endpoints, all values, both range operators", "why_tests_cant": "boundaries of arbitrary 128-bit ranges cannot be enumerated", "anchors": ["src/validate.rs: validate_range, check_range"]}
{"id": "C04", "title": "Float ranges follow IEEE comparison", "statement": "With float endpoints a and b, a..b accepts exactly floats x with not (x < a) and x <= b, and a...b exactly floats with not (x < a) and x < b in IEEE-754 order (so a NaN value is never accepted, and -0.0 equals 0.0). Integers are never accepted by float ranges nor floats by integer ranges; endpoints of two different kinds give a Structural error for every value.", "quantifier": "all 2^64 float patterns for endpoints and value; all literal endpoint pairs", "why_tests_cant": "2^64 bit patterns per operand", "anchors": ["src/validate.rs: validate_range, check_range"]}
{"id": "C05", "title": ".lt/.le/.gt/.ge compare exactly within the target class", "statement": "For target int, uint or nint and integer limit L, the control accepts exactly the values that are in the target class and satisfy the comparison with L; everything else is Mismatch. A non-integer limit, or any other target type, is a Structural error for every value.", "quantifier": "all four operators, all targets, all limits, all values", "why_tests_cant": "unbounded integers, twelve operator/target combinations", "anchors": ["src/validate.rs: validate_control_lt, validate_control_le, validate_control_gt, validate_control_ge and their _uint/_nint/_int helpers"]}
{"id": "C06", "title": ".size on uint bounds the number of bytes", "statement": "uint .size n (n a non-negative 64-bit integer) accepts exactly the integers x with 0 <= x < 256^n; uint .size a..b (a < b) accepts exactly the non-negative integers whose minimal byte count k (0 for zero) satisfies a <= k <= b (k < b for a...b). Negative or oversized limits are a Structural error for every value.", "quantifier": "all sizes, all ranges of sizes, all i128 values", "why_tests_cant": "the 128-bit shift boundary and every power of 256 would have to be tried", "anchors": ["src/validate.rs: validate_control_size, validate_size_uint", "src/normalize.rs: normalize_size_range"]}
{"id": "C07", "title": ".size on strings bounds the byte length", "statement": "tstr .size n accepts exactly texts whose UTF-8 encoding has n bytes, bstr .size n exactly byte strings of n bytes; with a range a..b / a...b the length must lie in that range. All other values are Mismatch.", "quantifier": "all strings of any length and any Unicode content, all limits", "why_tests_cant": "string lengths are unbounded and byte length differs from character count", "anchors": ["src/validate.rs: validate_size_tstr, validate_size_bstr", "src/normalize.rs: normalize_size_range"]}
{"id": "C08", "title": ".regexp and .cbor defer exactly to the regex engine and the CBOR decoder", "statement": "tstr .regexp r accepts exactly texts the compiled regex matches; bstr .cbor T accepts exactly byte strings that the CBOR decoder decodes to a convertible value which T accepts (T resolved in the scope of the enclosing rule); undecodable bytes give ValueError, other value kinds Mismatch.", "quantifier": "all regexes/decoders (as oracles), all nested types, all values", "why_tests_cant": "depends on arbitrary nested types and arbitrary byte strings", "anchors": ["src/validate.rs: validate_control_regexp, validate_control_cbor"]}
{"id": "C09", "title": "A type choice accepts iff some option accepts", "statement": "If no option fails fatally on the value, T1 / ... / Tn accepts a value iff at least one Ti accepts it; a rejection is a Mismatch naming the number of options. More precisely the options are tried in order and the first acceptance wins.", "quantifier": "all option lists of any length, all values", "why_tests_cant": "arbitrary nesting and number of options", "anchors": ["src/validate.rs: validate_choice"]}
{"id": "C10", "title": "Fatal errors are never hidden by a type choice", "statement": "If an option of a type choice produces a fatal error (anything but a data mismatch) and every earlier option mismatches, the whole validation returns precisely that error, whatever the later options are.", "quantifier": "all option lists, all errors, all values", "why_tests_cant": "every error kind in every position", "anchors": ["src/validate.rs: validate_choice", "src/util.rs: ValidateError::is_fatal"]}
{"id": "C11", "title": "A rule name means its definition", "statement": "For a non-generic rule, a reference to it gives the same verdict (Ok or the same error) as writing its definition in place, for every value, wherever the reference stands as a type, array member or map member, as long as the recursion limit is not hit.", "quantifier": "all schemas, rules, values and referencing positions", "why_tests_cant": "needs every schema and every position", "anchors": ["src/validate.rs: validate_rule, Context::lookup_rule"]}
{"id": "C12", "title": "A missing rule is reported by name", "statement": "When validation reaches, in type, array-member or group-member position, a name that is neither a generic parameter in scope nor a defined rule, the result is the MissingRule error carrying exactly that name (and never Ok) unless the name is only reached while searching for a map key; an unknown starting rule gives MissingRule before any data is decoded.", "quantifier": "all schemas with undefined names, all values", "why_tests_cant": "all positions of the undefined name", "anchors": ["src/validate.rs: Context::lookup_rule", "src/context.rs: BasicContext", "src/cbor.rs: validate_cbor_bytes"]}
{"id": "C13", "title": "Generic arity errors are always detected", "statement": "Reaching a reference that supplies a number of generic arguments different from the number of the rule's parameters yields GenericError for every value; validating directly against a rule with generic parameters yields GenericError for every value.", "quantifier": "all schemas, arities, values", "why_tests_cant": "all arities", "anchors": ["src/validate.rs: Context::derive, do_validate"]}
{"id": "C14", "title": "Generic parameters are lexically scoped", "statement": "Applying a generic rule r<p1..pn> = body to arguments a1..an behaves as body with every pi replaced by ai, where names occurring in ai keep the meaning they have at the place of the reference (no capture, also under nesting and when caller and callee use the same parameter names).", "quantifier": "all generic rules, arguments, nesting depths, values", "why_tests_cant": "capture bugs depend on name coincidences at arbitrary nesting", "anchors": ["src/validate.rs: Context::lookup_rule, Context::derive"]}
{"id": "C15", "title": "Validation terminates on every schema", "statement": "For every rule set (including mutually recursive or ill-formed ones), every lookup context and every value, validation finishes with Ok or an error (mathematical termination; machine resources ignored).", "quantifier": "all schemas, contexts, values", "why_tests_cant": "non-termination cannot be tested", "anchors": ["src/validate.rs: validate, Context::inc_depth, MAX_DEPTH"]}
{"id": "C16", "title": "Cyclic rule definitions are reported, not looped on", "statement": "If a rule's definition leads, by plain references only, back to itself without consuming data (a = a; a = b, b = a; through any number of rules), validation of any value returns the Structural error \"hit recursion limit\".", "quantifier": "all cycles of any length, all values", "why_tests_cant": "cycle lengths and values are unbounded", "anchors": ["src/validate.rs: Context::inc_depth"]}
{"id": "C17", "title": "The recursion limit bounds call nesting", "statement": "The nesting depth of rule expansions (and hence native stack use) is bounded by a constant times MAX_DEPTH and the size of the schema text.", "quantifier": "all schemas", "why_tests_cant": "needs every schema; expected to be refuted for nested generics", "anchors": ["src/validate.rs: MAX_DEPTH, Context::lookup_rule"]}
{"id": "C18", "title": "Work is bounded by data and schema size", "statement": "The number of iterations of an occurrence indicator is bounded by the number of elements (plus one).", "quantifier": "all schemas, all arrays/maps", "why_tests_cant": "needs all schemas; expected to be refuted for bodies that match nothing", "anchors": ["src/validate.rs: validate_array_occur, validate_map_occur"]}
{"id": "C19", "title": "Validation never panics", "statement": "No call to do_validate/validate_cbor/validate_json panics (no unwrap on an absent snapshot, key or element; no arithmetic overflow in loop counters or shifts).", "quantifier": "all schemas, contexts, values", "why_tests_cant": "panics in rare paths", "anchors": ["src/validate.rs: WorkingMap, WorkingArray, validate_size_uint"]}
{"id": "C20", "title": "The internal cut signal never escapes", "statement": "A validation result is never the MapCut variant: cut failures are reported to callers as Mismatch with the same text, at every nesting level, so a cut in an inner map cannot influence an outer choice.", "quantifier": "all schemas, values", "why_tests_cant": "all nestings of maps, groups, choices", "anchors": ["src/validate.rs: validate_map_part2, validate_map_member", "src/util.rs: erase_mapcut"]}
{"id": "C21", "title": "Fixed-shape arrays match element by element", "statement": "[t1, ..., tn] with type members (not groups, occurrences, unwraps) accepts exactly arrays of length n whose i-th element is accepted by ti; a non-array value is Mismatch; the error of the first failing element is the one reported; too long arrays are Mismatch(shorter array).", "quantifier": "all member lists and arrays", "why_tests_cant": "unbounded lengths", "anchors": ["src/validate.rs: validate_array, validate_array_part2, validate_array_member, validate_array_value"]}
{"id": "C22", "title": "Homogeneous arrays", "statement": "[* t] accepts exactly arrays all of whose elements t accepts; [+ t] additionally requires one element; [? t] at most one; [n*m t] (1 <= m) a number of elements between n and m. (t any type on which elements do not fail fatally.)", "quantifier": "all element types, all arrays, all bounds", "why_tests_cant": "unbounded lengths and bounds", "anchors": ["src/validate.rs: validate_array_occur"]}
{"id": "C23", "title": "Occurrence bounds are respected", "statement": "An occurrence n*m never matches more than m nor fewer than n repetitions of its body.", "quantifier": "all bounds, all bodies, all data", "why_tests_cant": "expected to be refuted for m = 0", "anchors": ["src/validate.rs: validate_array_occur, validate_map_occur"]}
{"id": "C24", "title": "Struct-like maps match exactly", "statement": "A map of distinct literal keys, each required or optional (`k: t`, `? k: t`), accepts exactly the map values in which every required key is present, every present key is listed, and each value is accepted by its type. Unlisted entries are always rejected.", "quantifier": "all key lists, all maps", "why_tests_cant": "unbounded maps", "anchors": ["src/validate.rs: validate_map_part2, validate_map_keyvalue, map_search_literal"]}
{"id": "C25", "title": "Table-like maps match exactly", "statement": "{* k => v} accepts exactly map values in which every key is accepted by k and every value by v.", "quantifier": "all key/value types, all maps", "why_tests_cant": "unbounded maps", "anchors": ["src/validate.rs: validate_map_occur, map_search"]}
{"id": "C26", "title": "Cuts are definitive", "statement": "When a member `k: t` (or `k ^ => t`) finds its key but the value is rejected by t with a mismatch, the map is rejected even when the member is optional, repeated or inside a choice, unless it is in a parenthesised group; without cut (`=>`) an optional member is skipped and later members can still match the entry.", "quantifier": "all maps, keys, member contexts", "why_tests_cant": "all contexts around a member", "anchors": ["src/validate.rs: validate_map_keyvalue, validate_map_occur, validate_map_choice"]}
{"id": "C27", "title": "Leftover data is rejected", "statement": "An accepted array (map) has all its elements (entries) consumed: every element of an accepted array and every entry of an accepted map was individually accepted by some type of the schema.", "quantifier": "all schemas, arrays and maps", "why_tests_cant": "all schemas", "anchors": ["src/validate.rs: validate_array_part2, validate_map_part2"]}
{"id": "C28", "title": "A failed group alternative leaves no trace", "statement": "When an alternative of a group choice fails, the data considered by the next alternative is exactly what was there before the failed one was tried.", "quantifier": "all groups, all data", "why_tests_cant": "expected to be refuted for nested groups, proved for groups without nested groups", "anchors": ["src/validate.rs: WorkingArray::rewind, WorkingArray::commit, WorkingMap::rewind, WorkingMap::commit"]}
{"id": "C29", "title": "Accepted data is described by the schema (soundness)", "statement": "If validation succeeds then the value belongs to the set described by the schema under the RFC 8610 meaning of its constructs (arrays as concatenations, maps as unordered unions of member matches, choices as unions, occurrences as bounded repetition, generics as parameterised definitions).", "quantifier": "all schemas in a stated class, all values", "why_tests_cant": "needs all schemas and values; refuted in general by C28 and C23", "anchors": ["src/validate.rs: validate"]}
{"id": "C30", "title": "Deterministic verdict: ordered-choice semantics (exactness)", "statement": "On schemas in a stated class the verdict (Ok / mismatch / fatal error) is exactly that of the greedy ordered-choice (PEG) reading of the schema described in RFC 8610 Appendix A: first matching alternative, greedy occurrences, no backtracking into completed members.", "quantifier": "all schemas in a stated class, all values", "why_tests_cant": "needs all schemas and values", "anchors": ["src/validate.rs: validate_array_member, validate_map_member"]}
{"id": "C31", "title": "Errors while looking for a map key are not lost", "statement": "A fatal error (missing rule, unsupported construct, generic misuse) raised while testing map keys is reported.", "quantifier": "all maps and key types", "why_tests_cant": "expected to be refuted", "anchors": ["src/validate.rs: map_search"]}
{"id": "C32", "title": "Unreachable rules are irrelevant", "statement": "The verdict depends only on the definitions of the rules reachable from the starting rule: adding, removing or changing any other rule changes nothing; in particular two lookup contexts that agree on reachable names give identical results.", "quantifier": "all rule sets, values", "why_tests_cant": "all rule sets", "anchors": ["src/validate.rs: Context::lookup_rule", "src/context.rs: LookupContext"]}
{"id": "C33", "title": "CBOR conversion preserves data", "statement": "Every CBOR value built from null, bool, integer, float, bytes, text, array, map converts successfully; scalars and array order are preserved; map entries are kept with the last of duplicate keys winning and the encoding order of distinct keys does not matter; any tag anywhere makes the conversion (and validation) fail with ValueError.", "quantifier": "all CBOR values", "why_tests_cant": "unbounded nesting, orders", "anchors": ["src/cbor.rs: TryFrom<&CBOR_Value> for Value"]}
{"id": "C34", "title": "JSON conversion preserves data", "statement": "JSON conversion never fails: null, booleans, strings, arrays and objects map to the same-kind value; a number in i64/u64 form becomes that integer, any other number becomes a float.", "quantifier": "all JSON values", "why_tests_cant": "unbounded nesting", "anchors": ["src/json.rs: TryFrom<&JSON_Value> for Value"]}
{"id": "C35", "title": "JSON and CBOR agree", "statement": "For a JSON value and the corresponding CBOR value (same tree), validation against the same rule gives the same result.", "quantifier": "all JSON values, rules, contexts", "why_tests_cant": "all pairs of values", "anchors": ["src/json.rs: validate_json", "src/cbor.rs: validate_cbor"]}
{"id": "C36", "title": "Errors of the one-call API come in a fixed order", "statement": "validate_cbor_bytes/validate_json_str report schema errors (parse, unsupported) first, then an unknown rule name, then data decoding errors, then validation errors; a success implies the schema parsed, the rule exists and the data decoded (as judged by the CBOR/JSON decoder of the crate).", "quantifier": "all inputs", "why_tests_cant": "all inputs", "anchors": ["src/cbor.rs: validate_cbor_bytes", "src/json.rs: validate_json_str"]}
{"id": "C37", "title": "Prelude names cannot be redefined", "statement": "A name of the standard prelude in type position always denotes the built-in type (or an Unsupported error); a user rule of the same name never affects the result of validating any other rule.", "quantifier": "all schemas", "why_tests_cant": "all schemas", "anchors": ["src/flatten.rs: flatten_typename"]}
{"id": "C38", "title": "Rule order does not matter, the last duplicate definition wins", "statement": "Flattening a list of rules gives, for each name, the flattened definition of the last rule of that name; permuting rules with distinct names gives the same rule map; one invalid rule makes the whole conversion fail with the error of the first invalid rule.", "quantifier": "all rule lists", "why_tests_cant": "all lists and permutations", "anchors": ["src/flatten.rs: flatten, flatten_rule"]}
{"id": "C39", "title": "The text-preserving API agrees with the plain one", "statement": "slice_parse_cddl succeeds iff parse_cddl does, with the same rules in order, each paired with the exact substring of the input it was parsed from; slice_flatten gives the same definitions as flatten.", "quantifier": "all schema texts", "why_tests_cant": "all texts", "anchors": ["src/parser/mod.rs: cddl, cddl_slice, slice_parse_cddl", "src/flatten.rs: slice_flatten"]}
{"id": "C40", "title": "Flattening accepts every supported construct and only these", "statement": "Conversion of a syntax tree succeeds exactly when it uses only supported control operators with admissible operands, range endpoints that are literals or non-prelude names, supported prelude names and generic arguments only on user names; otherwise it fails with Unsupported, Structural or GenericError; it never panics.", "quantifier": "all syntax trees", "why_tests_cant": "all trees", "anchors": ["src/flatten.rs: flatten"]}
{"id": "C41", "title": "Flattening preserves member order, occurrence and cut", "statement": "Members of a group appear in the tree in source order with their occurrence limits unchanged; `key: type` members carry a cut, `key => type` do not and `key ^ => type` do; bareword keys become text literals.", "quantifier": "all syntax trees / all member texts", "why_tests_cant": "all trees", "anchors": ["src/flatten.rs: flatten_group, flatten_groupentry, occur_wrap, flatten_member", "src/parser/mod.rs: grpent_member, assemble_basic_member"]}
{"id": "C42", "title": "The parser terminates and never panics", "statement": "parse_cddl on any input text returns a schema or a ParseError; no panic (in particular not the 'wrong key type' panic, no slicing or conversion panic).", "quantifier": "all input texts", "why_tests_cant": "infinitely many texts", "anchors": ["src/parser/mod.rs: parse_cddl, assemble_basic_member"]}
{"id": "C43", "title": "The parser never ignores input", "statement": "If parse_cddl succeeds then the text is completely covered by whitespace/comments and the texts of the returned rules in order; at least one rule is returned.", "quantifier": "all input texts", "why_tests_cant": "infinitely many texts", "anchors": ["src/parser/mod.rs: cddl, parse_cddl"]}
{"id": "C44", "title": "Integer literals denote their value", "statement": "A decimal, 0x or 0b literal of a value below 2^64 is parsed to exactly this value, a negated one with magnitude below 2^63 to its negation; larger ones are MalformedInteger; nothing wraps around.", "quantifier": "all digit strings", "why_tests_cant": "infinitely many digit strings", "anchors": ["src/parser/mod.rs: uint, int, parse_int, float_or_int"]}
{"id": "C45", "title": "Byte and text literals denote their content", "statement": "A text literal without escapes denotes exactly the enclosed characters; h'..' denotes the bytes spelled by the hex digits ignoring whitespace; odd digit counts or non-hex characters are MalformedHex.", "quantifier": "all literals", "why_tests_cant": "infinitely many literals", "anchors": ["src/parser/mod.rs: text_literal, bytestring, parse_hex"]}
{"id": "C46", "title": "All characters allowed by RFC 8610 are accepted in text literals", "statement": "Every character %x20-21 / %x23-5B / %x5D-7E / %x80-10FFFD may appear unescaped in a text literal.", "quantifier": "all characters", "why_tests_cant": "1.1 million characters; expected to be refuted", "anchors": ["src/parser/mod.rs: is_unescaped_schar, is_unescaped_bchar"]}
{"id": "C47", "title": "Identifiers follow the RFC grammar", "statement": "The identifier recogniser consumes the longest prefix that is an RFC 8610 id: starts with EALPHA, ends with EALPHA or DIGIT, with only '-' and '.' in between otherwise.", "quantifier": "all texts", "why_tests_cant": "infinitely many texts", "anchors": ["src/parser/mod.rs: ident, ident_tail"]}
{"id": "C48", "title": "Whitespace and comments are insignificant", "statement": "The whitespace recogniser consumes exactly the longest run of space/tab/CR/LF and complete ;-comments, and replacing whitespace between two tokens by other non-empty whitespace does not change the parsed schema.", "quantifier": "all texts", "why_tests_cant": "infinitely many texts", "anchors": ["src/parser/mod.rs: ws, comment, optcom"]}
{"id": "C49", "title": "Printing then parsing gives the schema back", "statement": "Every schema syntax tree (over parser-producible tokens) printed in canonical CDDL syntax is parsed back to itself, and every schema that the parser accepts has such a canonical rendering.", "quantifier": "all syntax trees", "why_tests_cant": "infinitely many trees", "anchors": ["src/parser/mod.rs: parse_cddl", "src/ast.rs"]}
{"id": "C50", "title": "Parsed schemas conform to the RFC grammar (soundness)", "statement": "If parse_cddl succeeds with a tree then the input text derives from the (documented variant of the) RFC 8610 ABNF grammar with that tree.", "quantifier": "all input texts", "why_tests_cant": "infinitely many texts", "anchors": ["src/parser/mod.rs: parse_cddl"]}
{"id": "C51", "title": "Map keys are ordered and unique", "statement": "The order on values used for map entries is a total order whose equality is equality of values, so a map holds exactly one entry per key, lookup finds precisely the equal key, and two maps with the same entries are equal. The order is: null, booleans, integers, floats, byte strings, texts, arrays, maps; within a kind by value, floats by sign and magnitude, strings, arrays and maps by the first difference. A member key => type takes, among the entries whose key it matches, the one that comes first in this order.", "quantifier": "all values of any nesting", "why_tests_cant": "orders on nested values", "anchors": ["src/value.rs: Value"]}
{"id": "C52", "title": "Occurrence symbols in messages are valid CDDL", "statement": "For every occurrence limit, the text that the Display of an occurrence shows in error messages, put in front of an array entry, is parsed as an occurrence indicator with exactly that limit.", "quantifier": "all occurrence limits, all rule and type names", "why_tests_cant": "2^128 limits", "anchors": ["src/ivt.rs: Occur::symbol", "src/parser/mod.rs: occur"]}
{"id": "C53", "title": "Shape of accepted schemas", "statement": "Every schema that parse_cddl accepts has at least one rule, no empty choice and no group without alternatives; every name is an identifier and every value and occurrence indicator is one that some literal text denotes; a bare name in a group is a member without key and never a group name; a key before a colon always has the cut; a rule is assigned a group only if the group has an occurrence indicator without a lower limit or is in parentheses.", "quantifier": "all input texts", "why_tests_cant": "infinitely many texts", "anchors": ["src/parser/mod.rs: parse_cddl, grpent_val, rule_val", "src/ast.rs"]}
{"id": "C54", "title": "Members may be written in place", "statement": "In an array or map, a parenthesised group, a name that stands for a group, and ~name for an array or map may be replaced by the members they stand for, and the reverse, without changing any verdict. (Inside an alternative of a group choice this fails because of the snapshot handling.)", "quantifier": "all schemas, positions, members and values", "why_tests_cant": "arbitrary member lists and data", "anchors": ["src/validate.rs: validate_array_member, validate_map_member, validate_array_unwrap, validate_map_unwrap, validate_array_group"]}
{"id": "C55", "title": "& chooses exactly among the members of a group", "statement": "A value matches &name or &( ... ) exactly if it matches the value of a keyed member, the type of a member without a key, or something offered by a group that is a member; keys are never compared with the value.", "quantifier": "all groups, nesting of group names and values, as long as no offered type is a schema error", "why_tests_cant": "nesting of groups is unbounded", "anchors": ["src/validate.rs: validate_choiceify, validate_choiceify_members"]}
{"id": "C56", "title": "Equivalent spellings of repetition", "statement": "?m is 0*1 m, *m is 0* m, +m is 1* m, and n*n m has the verdict of writing m n times, in arrays and in maps.", "quantifier": "all members, limits n > 0, positions and data", "why_tests_cant": "unbounded counts and data", "anchors": ["src/validate.rs: validate_array_occur, validate_map_occur", "src/ivt.rs: Occur::limits"]}
{"id": "C57", "title": "Laws of choices", "statement": "A choice inside a choice may be flattened, a choice of one option is that option, appending options never loses an accepted value, and the order of options of a type choice does not matter as long as none is a schema error.", "quantifier": "all option lists and data", "why_tests_cant": "arbitrary option lists", "anchors": ["src/validate.rs: validate_choice, validate_array_choice, validate_map_choice"]}
{"id": "C58", "title": "From schema text and encoded data to the verdict", "statement": "validate_json_str and validate_cbor_bytes accept exactly the data that the schema text describes and report anything else as a mismatch, for schemas that pass the checks of C59 and C60; for the larger class of tame schemas the verdict is the one of ordered choice. Spelling of literals, layout, comments and the encoding of the data do not matter.", "quantifier": "all schema texts, rule names and encoded documents (decoders of JSON and CBOR are external)", "why_tests_cant": "composition of parsing, flattening, conversion and validation for every schema and document", "anchors": ["src/json.rs: validate_json_str", "src/cbor.rs: validate_cbor_bytes", "src/flatten.rs: flatten_from_str"]}
{"id": "C59", "title": "Described data is accepted (completeness)", "statement": "Data that the schema describes (declarative reading, with cuts) is accepted, unless the schema itself is reported as wrong; so a mismatch is only reported for data that the schema does not describe.", "quantifier": "all schemas in the class where one element or key of look-ahead suffices, all data", "why_tests_cant": "negative claim over every way of splitting arrays and maps among the members", "anchors": ["src/validate.rs: validate_array, validate_map and everything below"]}
{"id": "C60", "title": "Errors other than a mismatch point at a defect of the schema", "statement": "Whenever validation ends in an error other than a mismatch, a defect can be reached from the rule validated against: a name that is not defined, used with the wrong number of arguments or too deep, & of something that is not a group, a member or group used as a type, a type used as a map entry, a range whose ends are not literals of one kind, a control with an unsuitable target or argument, or bytes that .cbor cannot decode. A schema without such a defect (which can be checked beforehand) answers yes or mismatch for all data.", "quantifier": "all schemas, start rules and data", "why_tests_cant": "arbitrary schemas and data; claims the absence of errors for every input", "anchors": ["src/validate.rs: all of ValidateResult's error exits", "src/context.rs: lookup_rule", "src/util.rs: is_fatal"]}
{"id": "C61", "title": "Which texts are schemas, and which tree each of them denotes", "statement": "A schema text is accepted exactly when it can be read deterministically: every token is the longest possible, all whitespace and comments are skipped, and the next character decides whether a phrase continues. The tree returned is the one read that way; any other text is reported as a parse error. In particular parentheses around a single type belong to the type unless a comma follows it, a right-hand side is a group only if it cannot begin with a type, and a group name is never read where a type fits.", "quantifier": "all texts; no bound on size or nesting (floating-point parsing, unescaping and base64 are external)", "why_tests_cant": "both directions range over every text: no accepted text is read differently and no readable text is rejected", "anchors": ["src/parser/mod.rs: parse_cddl and all parsers below it"]}
{"id": "C62", "title": "Schemas can be put together from several texts", "statement": "A schema text, a line break and a second schema text make a schema text with the rules of both, in that order; every name means what the last text defining it says. Data validated against a rule of the first text gets the same verdict with the second text added, unless that defines a name in use; data validated against a rule of the second text gets the same verdict with the first text in front, if the second text defines every name in use. (Without the line break neither holds: a comment or a name at the end of the first text would go on.)", "quantifier": "all pairs of accepted schema texts, rule names and documents", "why_tests_cant": "any two texts; depends on every way in which a phrase can end and continue", "anchors": ["src/parser/mod.rs: parse_cddl", "src/flatten.rs: flatten_from_str", "src/json.rs: validate_json_str", "src/cbor.rs: validate_cbor_bytes"]}
{"id": "C63", "title": "Errors of the parser name the fault", "statement": "When a schema text is rejected, the error is one of: a literal that occurs in the text, has the form of a number, string or byte string and has no value (out of range, bad escape, odd or non-hex digits, bad base64), with the matching kind and that literal's digits or content as context; a key that is a name with generic arguments; or 'Unparseable' with a context that is the rest of the text from a position where reading stopped: either inside the first rule, when no first rule can be read at all, or exactly after the last rule that could be read, where no other rule begins.", "quantifier": "all schema texts and all library behaviours", "why_tests_cant": "any text; every combinator of the parser can produce or discard an error", "anchors": ["src/parser/mod.rs: parse_cddl, slice_parse_cddl", "src/parser/parse_err.rs: ParseError, ErrorKind"]}
{"id": "C64", "title": "Names of rules and generic parameters do not matter", "statement": "Two schemas that differ only in the names of their rules (renamed one-to-one and consistently) and of their generic parameters (renamed within each rule, without capturing a rule's name, and leaving the standard prelude's names alone) give the same verdict on every document through every entry point: both are accepted or both give the same error, where the name in a missing-rule error is renamed as well. Barewords in key position are text and are not affected.", "quantifier": "all schemas, all renamings, all documents, all rule names, all library behaviours, any source of rule definitions", "why_tests_cant": "quantifies over all schemas and renamings; the generic-parameter and rule namespaces interact through every reference", "anchors": ["src/flatten.rs: flatten_rule, flatten_typename, flatten_name_generic, flatten_rule_generic", "src/validate.rs: Context::lookup_rule, derive, generic_map", "src/context.rs: BasicContext"]}
{"id": "C65", "title": "A reported mismatch is about one node and one part of the data, and its text is true", "statement": "Whenever validation ends in a mismatch with text m, the validation leads, step by step and with the same text m at every step, from the document to one part of it and one node of the schema that this part does not meet, and m is the text for that node and that reason: the literal, prelude type, range or limit that the value is not in, 'choice of n' when each of the n alternatives was tried and rejected, 'array element t' when the array has ended where an element t is needed, 'more array element [..]' when fewer repetitions were found than asked for, 'shorter array/map' when all members matched and something is left, 'map{k}' when no remaining key matches, and so on.", "quantifier": "all schemas, all documents, all rule names, all library behaviours, any source of rule definitions whose errors are not mismatches", "why_tests_cant": "quantifies over all schemas and documents; the text is passed on through arbitrarily many levels, alternatives, repetitions and cuts", "anchors": ["src/validate.rs: every use of mismatch(...)", "src/util.rs: ValidateError, Mismatch, erase_mapcut", "src/ivt.rs: Display implementations", "src/json.rs: validate_json_str", "src/cbor.rs: validate_cbor_bytes"]}
{"id": "C66", "title": "What validation does on every schema, without working copies", "statement": "For every schema, including those where a failed alternative loses data, the outcome of validation (accepted, mismatch with its message, or which schema error) is exactly the one given by a small rule system over plain lists of elements and entries: a member takes elements or entries and leaves others, also when it fails; members and alternatives go on with what the previous one left; a failed group puts back what its own members took but not what inner groups took; a repetition tries at least once and stops at its upper limit; a cut entry stops every choice up to the enclosing group. The rule system gives exactly one answer to each question, members of arrays and maps take and leave exactly what it says, and on schemas whose alternatives keep the data it agrees with the ordered-choice reading.", "quantifier": "all schemas, all documents, all library behaviours, any source of rule definitions that reports only schema errors", "why_tests_cant": "an exact characterisation of the verdict for all schemas and documents; tests sample schemas and hardly ever those that lose data", "anchors": ["src/validate.rs: validate_array_part2, validate_array_member, validate_array_group, validate_array_occur, validate_map_member, validate_map_group, validate_map_keyvalue, validate_map_occur, ArrayWorkingCopy, MapWorkingCopy"]}
{"id": "C67", "title": "A wider version of a schema accepts what the old one accepted", "statement": "When a schema is replaced by a wider one (more options in a type or group choice, a type that accepts more, wider limits of an occurrence, a member made optional, new optional members that claim no key of an earlier wildcard, more alternatives of a group used with &, dropped cuts, new rules), every document described by the old schema is described by the new one; and every document accepted under the old schema is accepted under the new one or the new schema itself is reported to be wrong, whenever the new schema can be read with one element of look-ahead. Both conditions can be checked by a procedure.", "quantifier": "all pairs of schemas related by any number of such changes at any depth (through rules, generics, & and ~), all documents", "why_tests_cant": "compatibility of schema versions is a statement about all documents at once; one rejected document refutes it, no number of accepted ones proves it", "anchors": ["src/validate.rs: do_validate, validate, validate_array_member, validate_map_member, validate_map_keyvalue, validate_choiceify_members, Context::derive"]}
{"id": "C68", "title": "A schema describes what it says as written", "statement": "What a rule describes can be read directly off the schema as written: a literal describes its value, a standard name its class, a choice what one of its options describes, a name what the last rule of that name (or the argument bound to that parameter, in the scope of the reference) describes, an array or map its members in sequence or in any order with the written occurrence limits, no entry being given to a member after one whose cut key claims it, ~ the members of the array or map named, & one of the members of a group, a range or control the values that satisfy it. For a text that passes the checks the entry points accept exactly the encoded data so described and report a mismatch for anything else; on the larger class of schemas whose alternatives keep the data, whatever is accepted is so described.", "quantifier": "all schema texts, all rules, all JSON texts and CBOR byte strings, all library behaviours", "why_tests_cant": "a statement about every schema and every document together, from the text to the verdict; tests compare a finite number of pairs", "anchors": ["src/parser.rs: parse_cddl", "src/flatten.rs: flatten, flatten_rule, flatten_type1, flatten_type2, flatten_group, flatten_grpent", "src/validate.rs: do_validate, validate", "src/cbor.rs: validate_cbor_bytes", "src/json.rs: validate_json_str"]}
{"id": "C69", "title": "The error for an unsupported schema is that of its first fault", "statement": "A schema that can be parsed but not used is reported with the error of its first fault in the order of the text, and with no other: the exact kind and message for an unsupported standard name, generic arguments on a standard name, a bad range endpoint, an unknown control operator (before its operands are looked at), a control whose operands are each fine but do not go together (after them), a malformed regular expression; a fault anywhere in a reference with ~ or & is a generic error. Every schema is either supported or has exactly one such error, what follows the first faulty rule does not matter, and the one-call entry points report that error whatever the rule's name and the data.", "quantifier": "all schemas and schema texts, all rule names, all data, all library behaviours", "why_tests_cant": "faults can be nested at any depth and in any combination; the tests contain a handful of single faults", "anchors": ["src/flatten.rs: flatten, flatten_rule, flatten_type, flatten_control, control_size, control_lt, control_regex, control_cbor, range_point, flatten_typename, flatten_rule_generic, flatten_name_generic, flatten_group, flatten_groupentry, flatten_member"]}
{"id": "C70", "title": "Literals, standard types, ranges and controls: the exact verdict, defects included", "statement": "Used as a type, a literal, a standard type, a range, or a .size, .lt, .le, .gt, .ge or .regexp control accepts the value, reports a mismatch, or reports a defect of the schema, and which of the three is settled by the schema and the value alone: names are followed to what they stand for; of several defects the first counts (the start of a range before its end, the argument of a control before its target; an unresolved name with its lookup error, anything unsuitable as a structural error); only without a defect does the value decide. There is always exactly one such verdict, a mismatch or defect is reported with the stated message text, and a defect is reported with the same error whatever the value.", "quantifier": "all such types, all rule tables, all scopes, all values, all library behaviours", "why_tests_cant": "the tests contain a few limits and a few defects one at a time; the statement covers all combinations of defects, names and values", "anchors": ["src/validate.rs: validate, validate_literal, validate_prelude_type, validate_range, deref_range_rule, validate_control, chase_rules, validate_control_size, validate_control_lt, validate_control_le, validate_control_gt, validate_control_ge, validate_control_regexp", "src/normalize.rs: normalize_size_range"]}
{"id": "C71", "title": "The reported error, with its text, is settled by the schema and the data", "statement": "On every schema and document the error that validation reports, its message included, is exactly the one that a rule system written apart from the validator tells: which of several mismatches is reported (the first member that fails, the choice rather than its options, too few repetitions with the occurrence and its member, leftover data), with the text spelled out by the specification. In particular a type choice that accepts nothing always reports the number of its options, whatever the options would have reported.", "quantifier": "all schemas, all documents, all library behaviours, JSON and CBOR entry points, every error", "why_tests_cant": "tests compare messages of a few failing documents; this fixes the message for all of them and excludes any other", "anchors": ["src/validate.rs: mismatch, make_oops, validate, validate_choice, validate_array_part2, validate_array_occur, validate_map_part2, validate_map_occur, validate_map_keyvalue", "src/ivt.rs: Display impls", "src/util.rs: ValidateError, mismatch"]}
{"id": "C72", "title": "Error messages quote the schema, never the document", "statement": "Whatever the document, the error reported by validation is one of a finite list that is computed from the schema alone: fixed texts and texts that quote a node or name of the schema. Keys, values and sizes of the document never appear in a mismatch. The only error that can depend on document content is what the CBOR decoder says about malformed bytes within the document.", "quantifier": "all rule tables, all requested rules, all documents, all library behaviours, JSON and CBOR entry points", "why_tests_cant": "absence of document content in messages is a statement about all documents; tests look at single messages", "anchors": ["src/util.rs: mismatch, ValidateError", "src/validate.rs: every use of mismatch, make_oops, ValidateError", "src/ivt.rs: Display impls"]}
{"id": "C73", "title": "The order in which entries are encoded does not matter, at any depth", "statement": "Two encoded documents that differ only in the order of the entries of maps (with distinct keys), or in entries that a later entry with the same key replaces, at any depth in arrays, keys and values, get the same result from validation, including the text of the error.", "quantifier": "all pairs of such CBOR items and JSON items, all schemas, all rules, all library behaviours", "why_tests_cant": "covers all rearrangements at all depths of all documents; the property rests on the ordered map the data is converted to", "anchors": ["src/value.rs: TryFrom<ciborium::value::Value>, TryFrom<serde_json::Value>", "src/cbor.rs", "src/json.rs"]}
{"id": "C74", "title": "Printed errors tell errors apart", "statement": "The text printed for an error is the kind of the error followed by what it is about, as specified case by case; two errors that validation can report print the same text only if they are the same error (the internal cut signal, which is never reported, prints like a mismatch). What a failed validation prints is one of finitely many texts that the schema determines, or a message of the CBOR decoder.", "quantifier": "all errors, all texts in them, all schemas and documents", "why_tests_cant": "injectivity over all texts cannot be tested", "anchors": ["src/util.rs: ValidateError #[error] attributes", "src/parser/parse_err.rs: ParseError Display"]}
{"id": "C75", "title": "Names and generic parameters resolve lexically", "statement": "In every scope every name has exactly one resolution and lookups find it: a generic parameter stands for its argument, read in the scope the rule was used from; any other name stands for the rule of that name, read inside that rule; a missing rule, a wrong number of arguments, and entering more than 50 rules are reported, in this order. Only scopes with as many arguments as parameters are ever entered.", "quantifier": "all rule sources, all scopes (any nesting of generic rules), all names and arguments", "why_tests_cant": "scopes nest without bound and arguments are arbitrary types; tests use one or two levels", "anchors": ["src/validate.rs: Context, lookup_rule, derive, blank, inc_depth, MAX_DEPTH"]}
{"id": "C76", "title": "Types with the same verdicts are interchangeable", "statement": "If two types that mention no names get the same verdict on every value when validated by themselves, then exchanging one for the other anywhere in a schema changes no verdict: as a whole type, an array element, a map key, a map value, an alternative, inside .cbor, in parentheses, and in any number of rules at once. For example int and uint / nint, or bool and true / false. The only places excepted are rules whose definition is inspected (named by ~, &, a range end or a control) and generic arguments.", "quantifier": "all schemas and all ways of exchanging any set of equal types in them, all values", "why_tests_cant": "A test compares two schemas on some documents; that exchange is harmless in every position, at every depth and for every document needs the validator to depend on a nested type only through its verdicts.", "anchors": ["src/validate.rs:302-470", "src/validate.rs:560-760", "src/validate.rs:790-1010"]}
{"id": "C77", "title": "The work of a validation is polynomial in the document for a fixed schema", "statement": "Every validation settles a definite number of questions (calls of a validation function and passes through its loops). If no array or map of the document has more than B entries, no rule is larger than s <= B, and members repeated more than B times cannot match without using something up, that number is at most (B+4) to a power that depends on s only (102(s+1) without generic parameters). The power cannot be avoided: nesting one generic rule k times with a document of k nested one-element arrays takes at least 2^k questions.", "quantifier": "all schemas of the class, all documents", "why_tests_cant": "a bound on the work for every schema and every document cannot be sampled; worst cases come from backtracking", "anchors": ["src/validate.rs: validate, validate_array, validate_map, validate_choice, validate_array_occur, validate_map_occur"]}
{"id": "C78", "title": "Equivalent spellings of types may be exchanged anywhere", "statement": "For all numbers, sizes and alternatives the following spellings accept and reject the same documents, alone and in the place of one another anywhere in a schema: a...(b+1) and a..b; n..n and n; a..b / (b+1)..c and a..c; uint .le n and 0..n; p .lt (n+1) and p .le n; p .gt n and p .ge (n+1); int with a comparison and the choice of uint and nint with it; p .lt a / p .ge a and p; uint .size n and 0..(256^n-1) for n < 16, uint .size (0..n) and uint .size n, uint .size (a..b) and (256^(a-1))..(256^b-1) for 0 < a < b; for strings, size ranges that are joined or end exclusively, and .size 0 and the empty string; int and uint / nint, bool and true / false; parentheses, nested choices, repeated alternatives, alternatives after any, and the order of alternatives that have no defect. On the other hand uint .size (n..n) is an upper limit and differs from uint .size (n...(n+1)), and a defective alternative makes the order matter.", "quantifier": "all integers and sizes, all lists of alternatives without names, all documents, all schemas around the exchanged types, all external functions", "why_tests_cant": "The boundaries hold for every number and every place in a schema; tests try single numbers in single places.", "anchors": ["src/validate.rs: validate_range, validate_control and the .size and comparison controls, validate_choice", "src/flatten.rs: flatten_range, flatten_control, control_size"]}
{"id": "C79", "title": "The work of the parser is polynomial for bounded nesting and doubles with each level of nesting", "statement": "Parsing a schema takes at most (150*(length+1)^3)^(d+1) calls of basic parsers (white space, names, literals, fixed strings), where d is the depth to which types and groups are nested, and d is at most twice the number of opening brackets plus one. No polynomial in the length alone bounds it: the well-formed schemas x=[a], x=[([a]a)], x=[([([a]a)]a)], ... grow by five characters each and take exactly 120*2^n-70 steps, because a parenthesis inside a group is read first as a type and then again as a group.", "quantifier": "all schema texts, all depths, all external functions", "why_tests_cant": "A growth rate is a statement about all lengths and depths; the exponential case needs nesting that no test schema has.", "anchors": ["src/parser/mod.rs:638-728 grpent_member, grpent_parens, grpent_val", "src/parser/mod.rs:838-1013 type2, type1", "src/parser/mod.rs:1118-1160 cddl, parse_cddl"]}
{"id": "C80", "title": "A literal without a value is reported only where it begins an entry", "statement": "In a rule whose right-hand side is a map or an array, an unsigned number of 2^64 or more that begins the first entry is reported as a malformed integer together with its digits. If the same number comes after a key (after a colon, an arrow, or a cut and an arrow) or after another alternative of a member without key, the schema is rejected too, but as unparseable: the kind of the error does not say that a number is wrong. The same holds of literals of every kind that have no value (negative numbers, numbers with a fraction or an exponent and a decimal whole part, text, byte strings in each notation): after a key or another alternative the schema is called unparseable; where such a literal begins the first entry and does not begin with a digit, the error is that of the literal.", "quantifier": "all rule names, all key names, all literals without a value, maps and arrays", "why_tests_cant": "A test tries one number in one place; which error is reported depends on which alternatives of the grammar swallow a failure, for every name and number.", "anchors": ["src/parser/mod.rs:638-705 grpent_member", "src/parser/mod.rs:743-793 occur_star, grpent", "src/parser/mod.rs:238-246 uint_u64", "src/parser/parse_err.rs:80-89"]}
{"id": "C81", "title": "A choice made from a generic group of parameters is the choice of the arguments", "statement": "Let g have one entry for each of its (distinct) parameters, the value of the entry being the parameter. Then &g<a, b, ...> accepts exactly what a / b / ... accepts: as a type, for every value; as a member of a map, between any other members; and as an element of an array, where it stands for one element of that type. So the parameters of the group are seen in its entries, the arguments mean what they mean where &g<...> is written, and the alternatives are tried in the order of the entries.", "quantifier": "all rule sets, all such groups with any number of entries, keys and cuts, all arguments, all surrounding members, all values, all external functions", "why_tests_cant": "Which scope a name in an entry is looked up in matters only for some combinations of arguments, members and values; the equality is over all of them.", "anchors": ["src/validate.rs:71-137 lookup_rule, derive", "src/validate.rs:794-870 validate_map_choiceify_members, validate_map_choiceify", "src/validate.rs:1579-1638 validate_choiceify_members, validate_choiceify"]}
