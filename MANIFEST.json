{
 "claims": [
  {
   "property": "C01",
   "status": "partial",
   "theorems": [
    "C01_partial",
    "C01_refuted",
    "C01_wrong_tree_refuted"
   ],
   "note": "Full statement is false of the code: a string value ending in an escaped backslash (content without quotes) is rejected or mis-delimited (parser.go:141-147). Proved for all other RFC texts."
  },
  {
   "property": "C02",
   "status": "proved",
   "theorems": [
    "C02_parse_iff",
    "C02_unique",
    "C02_grammar_unambiguous",
    "C02_rfc_unambiguous"
   ],
   "note": "Exact grammar, both directions, with uniqueness."
  },
  {
   "property": "C03",
   "status": "proved",
   "theorems": [
    "C03_terminates",
    "C03_depth"
   ],
   "note": "Go stack size is not modelled; the nesting of calls and loop steps is at most 3*len+1."
  },
  {
   "property": "C04",
   "status": "proved",
   "theorems": [
    "C04_results_point_into_input"
   ],
   "note": ""
  },
  {
   "property": "C05",
   "status": "proved",
   "theorems": [
    "C05_error_stable",
    "C05_success_stable"
   ],
   "note": ""
  },
  {
   "property": "C06",
   "status": "partial",
   "theorems": [
    "C06_refuted",
    "C06_completable_partial",
    "C06_prefixes"
   ],
   "note": "First half is false for a broken literal at the end of input, e.g. tr}; proved for everything else. Second half proved in full."
  },
  {
   "property": "C07",
   "status": "proved",
   "theorems": [
    "C07_failed_parse",
    "C07_successful_parse",
    "C07_trees_kept"
   ],
   "note": "Value level; sharing of backing arrays is C50."
  },
  {
   "property": "C08",
   "status": "proved",
   "theorems": [
    "C08_minified"
   ],
   "note": ""
  },
  {
   "property": "C09",
   "status": "proved",
   "theorems": [
    "C09_roundtrip"
   ],
   "note": ""
  },
  {
   "property": "C11",
   "status": "proved",
   "theorems": [
    "C11_stale",
    "C11_reads",
    "C11_mutators"
   ],
   "note": "The revision is a uint64, so the statement needs fewer than 2^64 resets."
  },
  {
   "property": "C12",
   "status": "partial",
   "theorems": [
    "C12_refuted",
    "C12_set_partial",
    "C12_get_partial",
    "C12_assign"
   ],
   "note": "False when the value is a same-document root that contains the object: a cycle results. Proved otherwise."
  },
  {
   "property": "C13",
   "status": "proved",
   "theorems": [
    "C13_get_first",
    "C13_get_absent",
    "C13_get_tree"
   ],
   "note": ""
  },
  {
   "property": "C14",
   "status": "partial",
   "theorems": [
    "C14_refuted",
    "C14_del_partial",
    "C14_del_first"
   ],
   "note": "False for an object with the key twice: only the first goes. Proved otherwise, with the exact result for all objects."
  },
  {
   "property": "C15",
   "status": "partial",
   "theorems": [
    "C15_refuted",
    "C15_append_partial",
    "C15_index",
    "C15_index_other",
    "C15_replace_partial",
    "C15_replace_out",
    "C15_remove"
   ],
   "note": "Append and Replace can store an ancestor of the array (cycle); proved otherwise. Index and Remove proved in full."
  },
  {
   "property": "C16",
   "status": "partial",
   "theorems": [
    "C16_refuted",
    "C16_slice_partial"
   ],
   "note": "Slice(i,j) does nothing when i = j or j = len; proved otherwise."
  },
  {
   "property": "C17",
   "status": "partial",
   "theorems": [
    "C17_refuted",
    "C17_acyclic_partial",
    "C17_trees_partial",
    "C17_appendjson_returns",
    "C17_calls_return",
    "C17_strip_returns"
   ],
   "note": "Cycles can be made by storing an ancestor; proved for all histories that do not."
  },
  {
   "property": "C18",
   "status": "partial",
   "theorems": [
    "C18_refuted",
    "C18_unshared_partial"
   ],
   "note": "Sharing arises when a copied root, which keeps its root flag, is stored again; proved for histories that do not adopt a node that has a parent."
  },
  {
   "property": "C19",
   "status": "partial",
   "theorems": [
    "C19_refuted",
    "C19_local_partial",
    "C19_strip",
    "C19_documents"
   ],
   "note": "False for Strip, which mutates descendants; proved for all other mutators, and for Strip when the trees are disjoint."
  },
  {
   "property": "C20",
   "status": "proved",
   "theorems": [
    "C20_set",
    "C20_append",
    "C20_replace",
    "C20_independent"
   ],
   "note": ""
  },
  {
   "property": "C21",
   "status": "partial",
   "theorems": [
    "C21_refuted",
    "C21_dup_refuted",
    "C21_strip",
    "C21_clean_partial",
    "C21_rest"
   ],
   "note": "Strip skips objects inside arrays and second occurrences of the key; exact effect proved for every unshared tree."
  },
  {
   "property": "C22",
   "status": "partial",
   "theorems": [
    "C22_refuted",
    "C22_lookup_partial",
    "C22_step_nil",
    "C22_step_object",
    "C22_step_array_partial",
    "C22_step_other"
   ],
   "note": "An empty step in an array finds element 0 and a step from 2^63 wraps; proved for all others."
  },
  {
   "property": "C23",
   "status": "proved",
   "theorems": [
    "C23_values",
    "C23_reset",
    "C23_close"
   ],
   "note": ""
  },
  {
   "property": "C26",
   "status": "proved",
   "theorems": [
    "C26_roundtrip",
    "C26_valid",
    "C26_runes"
   ],
   "note": "unicode/utf8 of the Go library is modelled by its documented behaviour."
  },
  {
   "property": "C27",
   "status": "proved",
   "theorems": [
    "C27_safe",
    "C27_exact"
   ],
   "note": ""
  },
  {
   "property": "C28",
   "status": "proved",
   "theorems": [
    "C28_append"
   ],
   "note": "Value level: append never writes below len(dst)."
  },
  {
   "property": "C29",
   "status": "proved",
   "theorems": [
    "C29_total",
    "C29_buffer",
    "C29_append",
    "C29_short_buffer_refuted"
   ],
   "note": "The last theorem shows the length condition is needed."
  },
  {
   "property": "C30",
   "status": "partial",
   "theorems": [
    "C30_refuted",
    "C30_partial",
    "C30_no_surrogates",
    "C30_meaning_once"
   ],
   "note": "False for an unpaired surrogate followed by another \\u escape, which is swallowed; proved for all other contents."
  },
  {
   "property": "C31",
   "status": "partial",
   "theorems": [
    "C31_refuted",
    "C31_partial"
   ],
   "note": "False for \\u followed by four bytes that are not all hexadecimal digits; proved for all other malformed escapes."
  },
  {
   "property": "C32",
   "status": "partial",
   "theorems": [
    "C32_space",
    "C32_number_end",
    "C32_digit",
    "C32_to_digit",
    "C32_to_digit_else",
    "C32_to_json",
    "C32_to_hex",
    "C32_from_hex_refuted",
    "C32_from_hex_partial",
    "C32_generated"
   ],
   "note": "bytemapFromHex gives g-z and G-Z values 16-35; all other tables are right on all bytes."
  },
  {
   "property": "C10",
   "status": "partial",
   "theorems": [
    "C10_refuted",
    "C10_key_refuted",
    "C10_partial",
    "C10_rfc"
   ],
   "note": "False for text without quotes that ends in a backslash (the parser misreads the closing quote) and for keys Set does not escape; proved for all other histories. C10_rfc: for all texts the output is valid JSON."
  },
  {
   "property": "C39",
   "status": "proved",
   "theorems": [
    "C39_types",
    "C39_types_in",
    "C39_type_flag",
    "C39_root_flag",
    "C39_split",
    "C39_retype",
    "C39_is",
    "C39_is_value"
   ],
   "note": ""
  },
  {
   "property": "C24",
   "status": "partial",
   "theorems": [
    "C24_value",
    "C24_fails",
    "C24_dead",
    "C24_invalid",
    "C24_keys_refuted"
   ],
   "note": "Proved for every document; keys of maps are not unescaped (C24_keys_refuted), so the statement holds for keys as written."
  },
  {
   "property": "C25",
   "status": "partial",
   "theorems": [
    "C25_data",
    "C25_place",
    "C25_raw",
    "C25_string",
    "C25_any_string",
    "C25_bool",
    "C25_number",
    "C25_int_partial"
   ],
   "note": "Proved except that ToInt reads back only integers that are float64 values (see C37) and strings that are not valid UTF-8 read back with U+FFFD."
  },
  {
   "property": "C33",
   "status": "partial",
   "theorems": [
    "C33_refuted",
    "C33_signs_refuted",
    "C33_number_partial",
    "C33_nan_partial",
    "C33_rfc"
   ],
   "note": "False for exponents of twenty or more digits (64-bit wrap-around) and for repeated exponent signs; proved otherwise."
  },
  {
   "property": "C34",
   "status": "proved",
   "theorems": [
    "C34_nearest",
    "C34_exact"
   ],
   "note": ""
  },
  {
   "property": "C35",
   "status": "partial",
   "theorems": [
    "C35_refuted",
    "C35_int_refuted",
    "C35_deep_refuted",
    "C35_wraps",
    "C35_partial",
    "C35_wide_partial",
    "C35_over_partial",
    "C35_rounded_partial",
    "C35_exact_partial"
   ],
   "note": "False when integer or fraction digits overflow 64 bits, and for some fractions of more than 307 digits with an exponent; otherwise proved for every exponent of at most 18 digits: relative error 2^-49 and one subnormal unit up to 2^1022, infinite from 2^1026 on; correctly rounded where the code falls back to strconv."
  },
  {
   "property": "C36",
   "status": "partial",
   "theorems": [
    "C36_refuted",
    "C36_range_refuted",
    "C36_fraction_refuted",
    "C36_accessors",
    "C36_dead",
    "C36_int_exact",
    "C36_uint_exact",
    "C36_nearest",
    "C36_int_partial",
    "C36_uint_partial",
    "C36_whole_partial",
    "C36_whole_refuted",
    "C36_sound_partial",
    "C36_fraction_partial",
    "C36_high",
    "C36_low_partial",
    "C36_uint_high",
    "C36_uint_negative",
    "C36_malformed"
   ],
   "note": "False beyond 2^53 since integers go through float64; exact characterisation proved for integer texts, soundness for small fractions, completeness for integers up to 2^53 written with a point or a nonnegative exponent (false for 300000e-5)."
  },
  {
   "property": "C37",
   "status": "partial",
   "theorems": [
    "C37_refuted",
    "C37_max_refuted",
    "C37_int",
    "C37_uint",
    "C37_int_partial",
    "C37_uint_partial",
    "C37_text"
   ],
   "note": "False for integers that are not float64 values; C37_int and C37_uint characterise exactly those that read back."
  },
  {
   "property": "C38",
   "status": "partial",
   "theorems": [
    "C38_refuted",
    "C38_partial",
    "C38_append_partial",
    "C38_limits",
    "C38_notation",
    "C38_notation32",
    "C38_bits"
   ],
   "note": "NaN, the infinities and float32 overflows are not numbers; proved for all other floats, for any strconv.AppendFloat meeting ftoa_spec."
  },
  {
   "property": "C52",
   "status": "partial",
   "theorems": [
    "C52_refuted",
    "C52_three_tenths",
    "C52_partial"
   ],
   "note": "False for 0.3; exact for integer texts and texts handed to strconv, within relative error 2^-49 (and one subnormal unit) of the text otherwise, for every exponent."
  },
  {
   "property": "C45",
   "status": "partial",
   "theorems": [
    "C45_parts",
    "C45_tag_partial",
    "C45_field_partial",
    "C45_untagged",
    "C45_long_refuted"
   ],
   "note": "False for a tag whose unquoted value is longer than the tag (only when the tag is not UTF-8); proved for all others. reflect.StructTag.Lookup is an input here; C68 has it."
  },
  {
   "property": "C51",
   "status": "partial",
   "theorems": [
    "C51_refuted",
    "C51_json",
    "C51_text_partial",
    "C51_text_raw",
    "C51_text_other",
    "C51_dead"
   ],
   "note": "WrapUnmarshalText passes the raw escapes, so the statement is false for strings with escapes; the rest is proved."
  },
  {
   "property": "C53",
   "status": "proved",
   "theorems": [
    "C53_print",
    "C53_append"
   ],
   "note": "The writer is modelled as receiving one slice of bytes."
  },
  {
   "property": "C49",
   "status": "partial",
   "theorems": [
    "C49_refuted",
    "C49_partial",
    "C49_lines",
    "C49_decode_iff",
    "C49_unique",
    "C49_takes_line",
    "C49_last",
    "C49_lost_refuted"
   ],
   "note": "False for JSON texts that contain a newline; proved for all other texts, every buffer size. The bufio.Reader is modelled by its documented behaviour over a reader that delivers all bytes."
  },
  {
   "property": "C48",
   "status": "partial",
   "theorems": [
    "C48_exclusive",
    "C48_get",
    "C48_stale_partial",
    "C48_wrap_refuted",
    "C48_isolated",
    "C48_refuted"
   ],
   "note": "False when a document is closed twice; proved for users that give back only what they own. Nodes of earlier uses are inert until 2^64 resets, after which the revision repeats."
  },
  {
   "property": "C47",
   "status": "proved",
   "theorems": [
    "C47_same",
    "C47_kept",
    "C47_built_for",
    "C47_no_crash",
    "C47_no_race",
    "C47_progress",
    "C47_bounded",
    "C47_answered"
   ],
   "note": "Interleavings of single map and lock accesses; sync.RWMutex by its documentation; building a codec is one step that returns."
  },
  {
   "property": "C50",
   "status": "proved",
   "theorems": [
    "C50_refines",
    "C50_exclusive",
    "C50_iterator_refuted"
   ],
   "note": "All histories of the calls of Api.v and all growth policies; arrays are never freed. The iterator of node.go:143-148 does share the node array, shown by C50_iterator_refuted."
  },
  {
   "property": "C41",
   "status": "partial",
   "theorems": [
    "C41_partial",
    "C41_refuted",
    "C41_text_refuted",
    "C41_panic_refuted"
   ],
   "note": "False for floats beyond float32 range, text methods returning quotes, raw string fields and keys with quotes; Marshal panics on some methods with pointer receivers. Proved for everything else; strconv.AppendFloat is a parameter meeting ftoa_spec."
  },
  {
   "property": "C44",
   "status": "partial",
   "theorems": [
    "C44_partial",
    "C44_struct",
    "C44_once_partial",
    "C44_empty_partial",
    "C44_refuted"
   ],
   "note": "Members, order, keys and separators proved for all structs written field by field; keys are unique except where C46 fails; omitempty also drops arrays whose elements are all empty and structs whose fields are."
  },
  {
   "property": "C46",
   "status": "partial",
   "theorems": [
    "C46_exact",
    "C46_unique",
    "C46_partial",
    "C46_returns",
    "C46_refuted"
   ],
   "note": "False when a deeper field is declared before a shallower one; proved for all other keys. C46_exact characterises the fields kept for all keys."
  },
  {
   "property": "C54",
   "status": "partial",
   "theorems": [
    "C54_partial",
    "C54_refuted",
    "C54_cyclic"
   ],
   "note": "False for a struct that embeds a pointer to itself, where building never returns; proved for all other types."
  },
  {
   "property": "C42",
   "status": "partial",
   "theorems": [
    "C42_partial",
    "C42_node_partial",
    "C42_slice_partial",
    "C42_refuted",
    "C42_array_refuted",
    "C42_range_refuted",
    "C42_rest_refuted",
    "C42_first"
   ],
   "note": "False for elements of slices (the slice is cut short instead), elements of arrays (left as they were), integers out of range (taken modulo 2^bits) and text after the value; proved for all types decoded by kind that have no slices or arrays, and the effect on slices is characterised."
  },
  {
   "property": "C43",
   "status": "partial",
   "theorems": [
    "C43_partial",
    "C43_node_partial",
    "C43_map_partial",
    "C43_refuted",
    "C43_lost_refuted",
    "C43_named_refuted",
    "C43_nil_refuted",
    "C43_loop_refuted"
   ],
   "note": "False for nil maps, maps with a defined key type, defined interface types, nil targets and looping pointer types (panic or endless) and for nil embedded pointers (members lost); proved for every input and every other type decoded by kind, and for maps that are not nil."
  },
  {
   "property": "C40",
   "status": "partial",
   "theorems": [
    "C40_partial",
    "C40_refuted",
    "C40_utf8_refuted",
    "C40_int_refuted",
    "C40_float_refuted",
    "C40_map_refuted",
    "C40_nil_refuted",
    "C40_iface_refuted",
    "C40_key_refuted"
   ],
   "note": "False for strings ending in a backslash or not UTF-8, integers and floats that are no float64 or float32 values, maps, pointers to nil, and interfaces holding other types or escaped keys; proved for all other values of types encoded and decoded by kind."
  },
  {
   "property": "C55",
   "status": "partial",
   "theorems": [
    "C55_partial",
    "C55_decode_partial",
    "C55_marshal_partial",
    "C55_unmarshal",
    "C55_refuted",
    "C55_decode_refuted"
   ],
   "note": "False for fields without hints of a struct type that has methods for only one of encoding and decoding: the cache hands out the struct codec instead; proved for all other fields, elements and values in interfaces, and for the values given to Marshal and Unmarshal (a method only on the pointer makes Marshal panic for a value)."
  },
  {
   "property": "C56",
   "status": "partial",
   "theorems": [
    "C56_new",
    "C56_partial",
    "C56_tree_partial",
    "C56_reject",
    "C56_method_partial",
    "C56_pointer_partial",
    "C56_default",
    "C56_nil_refuted",
    "C56_nan_refuted",
    "C56_method_refuted",
    "C56_pointer_refuted"
   ],
   "note": "False for nil pointers and methods that only the pointer type has (panic), with AllowNaN or AllowInf (NaN and Inf are written), and where an Omit method is on the pointer only (a value and a pointer to it give different texts); proved otherwise, with the exclusions of C41."
  },
  {
   "property": "C57",
   "status": "partial",
   "theorems": [
    "C57_new",
    "C57_partial",
    "C57_errors_partial",
    "C57_reject_partial",
    "C57_method",
    "C57_iface",
    "C57_nil",
    "C57_default",
    "C57_method_refuted",
    "C57_iface_refuted"
   ],
   "note": "False for decoders of types with a method, which take any type with the method, and for the interface decoder, which overwrites its target on an error; proved otherwise, with the exclusions of C42 and C43."
  },
  {
   "property": "C58",
   "status": "partial",
   "theorems": [
    "C58_partial",
    "C58_refuted"
   ],
   "note": "The exclusions of C40 (types encoded and decoded by kind, no maps, values that survive); all options. With another tag it is false."
  },
  {
   "property": "C59",
   "status": "partial",
   "theorems": [
    "C59_partial",
    "C59_refuted",
    "C59_resumes",
    "C59_line",
    "C59_failed"
   ],
   "note": "The exclusions of C40 and C58; false for methods that write JSON with a newline. That a call takes one line, and that a failed call writes nothing, is proved for all types and values."
  },
  {
   "property": "C60",
   "status": "partial",
   "theorems": [
    "C60_fields",
    "C60_order",
    "C60_words",
    "C60_append",
    "C60_append_compiles",
    "C60_append_refuted",
    "C60_unmarshal",
    "C60_unmarshal_compiles",
    "C60_unmarshal_refuted",
    "C60_stable",
    "C60_stable_refuted",
    "C60_reads_refuted"
   ],
   "note": "Both characterisations are exact for all types, but for names with a carriage return, which Go accepts in a raw string and drops; the model counts them as wrong. Refuted: structs for which the generator reports no error and makes code that does not compile; with equal tags the code depends on the order of a Go map."
  },
  {
   "property": "C61",
   "status": "partial",
   "theorems": [
    "C61_partial",
    "C61_keys_refuted",
    "C61_floats_refuted",
    "C61_names_refuted",
    "C61_self_refuted",
    "C61_nil"
   ],
   "note": "All types and values but raw fields, names that need escapes or have a backslash (Go reads it as an escape), maps with keys other than integers and booleans (string keys are quoted twice), floats that are not finite, and types that have a method AppendJSON from an embedded field (the generated method calls itself without end)."
  },
  {
   "property": "C62",
   "status": "partial",
   "theorems": [
    "C62_reads",
    "C62_exact",
    "C62_dead",
    "C62_length_refuted",
    "C62_string_refuted",
    "C62_null_refuted"
   ],
   "note": "Proved for all types, targets and nodes; the refuted parts are that a slice has as many elements as the array, that a string field refuses other types, and that null is taken everywhere."
  },
  {
   "property": "C63",
   "status": "partial",
   "theorems": [
    "C63_partial",
    "C63_values_refuted",
    "C63_paired_refuted",
    "C63_names_refuted"
   ],
   "note": "All struct types and values whose fields are written and read alike, whose integers are float64 values, whose floats are read as they were and whose strings are UTF-8 that do not end with a backslash; pointers are to structs. No map with an entry comes back, as the keys that can be written are not strings and those that can be read are."
  },
  {
   "property": "C64",
   "status": "partial",
   "theorems": [
    "C64_line",
    "C64_parse",
    "C64_type",
    "C64_names",
    "C64_type_refuted"
   ],
   "note": "One line for all errors; the texts of errors of Document.Parse are injective; those of type errors determine the type, and the types wanted unless the type is one of them, when they are left out (refuted). The nil *ParseError is not modelled."
  },
  {
   "property": "C65",
   "status": "partial",
   "theorems": [
    "C65_filename",
    "C65_filename_inj",
    "C65_file",
    "C65_recognised",
    "C65_marks",
    "C65_generated",
    "C65_clash_refuted"
   ],
   "note": "Everything but that the imports bind different names, which is false for two packages of the same name."
  },
  {
   "property": "C66",
   "status": "partial",
   "theorems": [
    "C66_run",
    "C66_named",
    "C66_kept_partial",
    "C66_kept_refuted",
    "C66_args",
    "C66_args_refuted",
    "C66_receiver_partial",
    "C66_receiver_refuted"
   ],
   "note": "Which methods are written where is proved. Refuted: a failing run keeps the file (formatting happens after it is created); every type given is used; the receiver is usable for every type name."
  },
  {
   "property": "C67",
   "status": "partial",
   "theorems": [
    "C67_append",
    "C67_unmarshal",
    "C67_panics",
    "C67_made",
    "C67_missing",
    "C67_nil",
    "C67_method_refuted",
    "C67_alias_refuted",
    "C67_twice_refuted",
    "C67_tail_refuted"
   ],
   "note": "When a test reports nothing is proved for all types, methods and options. Refuted: a missing method is reported by AppendJSON (it panics); the value is compared with what it was (not with the same pointer as Value); a run can be repeated (not with a reader); the data are one JSON text (what follows the value is ignored)."
  },
  {
   "property": "C68",
   "status": "partial",
   "theorems": [
    "C68_lookup",
    "C68_field_partial",
    "C68_field_refuted",
    "C68_untagged",
    "C68_generator",
    "C68_dash",
    "C68_none",
    "C68_generator_refuted"
   ],
   "note": "Lookup is exact for all tags; names and hints for all tags in UTF-8 (refuted for others). The generator takes a part that contains omitempty for it (refuted)."
  },
  {
   "property": "C69",
   "status": "partial",
   "theorems": [
    "C69_partial",
    "C69_unique"
   ],
   "note": "With the exclusions of C41. A struct type with methods for one direction only may be written by its fields (C55)."
  },
  {
   "property": "C70",
   "status": "proved",
   "theorems": [
    "C70_new",
    "C70_text",
    "C70_number",
    "C70_number_refuted",
    "C70_root"
   ],
   "note": "For finite floats; for NaN and the infinities Number makes a node that is no JSON (C70_number_refuted)."
  },
  {
   "property": "C71",
   "status": "proved",
   "theorems": [
    "C71_fields",
    "C71_fatal",
    "C71_methods",
    "C71_options",
    "C71_pkg"
   ],
   "note": "Functions of strcase, strings.ToLower and regexp.Compile are inputs."
  },
  {
   "property": "C72",
   "status": "partial",
   "theorems": [
    "C72_partial",
    "C72_trees_partial",
    "C72_fields_partial",
    "C72_nil_refuted",
    "C72_float_refuted"
   ],
   "note": "Missing: types with methods, hints html and 8bit, omitempty on structs, and which fields both find in structs with embedded ones (a hypothesis there). Refuted for nil pointers without omitempty and for floats that Marshal rounds to 32 bits."
  },
  {
   "property": "C73",
   "status": "partial",
   "theorems": [
    "C73_args",
    "C73_file",
    "C73_fatal",
    "C73_single",
    "C73_single_refuted",
    "C73_lost_refuted"
   ],
   "note": "The file is exact for all arguments. Refuted: a set of one byte gives its table (it gives zeros); a run that fails keeps the old file."
  },
  {
   "property": "C74",
   "status": "partial",
   "theorems": [
    "C74_partial",
    "C74_both_partial",
    "C74_fields_partial",
    "C74_empty_refuted",
    "C74_again_refuted",
    "C74_null_refuted",
    "C74_string_refuted"
   ],
   "note": "Missing: targets that are not zero values, maps, types with methods, empty arrays and repeated keys, and which fields both find in structs with embedded ones (a hypothesis there). Refuted for empty arrays, repeated keys, null for a number, and a number for a string."
  },
  {
   "property": "C75",
   "status": "proved",
   "theorems": [
    "C75_nodes",
    "C75_output",
    "C75_depth",
    "C75_deep",
    "C75_memory"
   ],
   "note": "Cells are counted in the memory model (Mem.v): the sizes of Go records and of what the runtime rounds up to are not."
  },
  {
   "property": "C76",
   "status": "partial",
   "theorems": [
    "C76_reuse",
    "C76_early_refuted"
   ],
   "note": "Refuted for texts that end early: the arrays made for them are dropped and made again. Calls other than Reset between the two parses are not covered."
  },
  {
   "property": "C77",
   "status": "partial",
   "theorems": [
    "C77_partial",
    "C77_unique",
    "C77_nil_refuted",
    "C77_bytes_refuted",
    "C77_float_refuted",
    "C77_fields_refuted",
    "C77_keys_refuted",
    "C77_pointer_refuted"
   ],
   "note": "Missing: types with methods. Refuted for nil slices, slices of bytes, float64 values, integer keys, nil pointers, and for tags and embedded structs that the two packages read differently; the order of the members of maps is left open."
  },
  {
   "property": "C78",
   "status": "partial",
   "theorems": [
    "C78_partial",
    "C78_case_refuted",
    "C78_key_refuted",
    "C78_null_refuted",
    "C78_int_refuted",
    "C78_float_refuted",
    "C78_string_refuted",
    "C78_bytes_refuted",
    "C78_map_refuted",
    "C78_range_refuted",
    "C78_rest_refuted"
   ],
   "note": "Missing: types with methods, maps as targets, targets that are not zero values, keys that are there twice. Refuted for keys that differ in case or have escapes, null into values that are not zero, integers and fractions that numjson does not read exactly, numbers out of range, strings that end in a backslash, slices of bytes, nil maps, and text after the value."
  },
  {
   "property": "C79",
   "status": "partial",
   "theorems": [
    "C79_partial",
    "C79_eof",
    "C79_refuted",
    "C79_want_refuted"
   ],
   "note": "Refuted for misspelt literals, which are reported at their first byte; the rest is proved for all texts. What was wanted is not all that would do (refuted: the bracket after [ is left out)."
  }
 ]
}