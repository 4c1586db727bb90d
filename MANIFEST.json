{
 "claims": [
  {
   "property": "C01",
   "status": "proved",
   "theorems": [
    "C01_rfc_accept"
   ],
   "note": ""
  },
  {
   "property": "C02",
   "status": "proved",
   "theorems": [
    "C02_exact_language",
    "C02_decides",
    "C02_rfc_included"
   ],
   "note": ""
  },
  {
   "property": "C03",
   "status": "proved",
   "theorems": [
    "C03_terminates",
    "C03_fuel_independent",
    "C03_despace_terminates"
   ],
   "note": ""
  },
  {
   "property": "C04",
   "status": "partial",
   "theorems": [
    "C04_no_overread_refuted",
    "C04_safe_with_readable_end_partial",
    "C04_end_byte_irrelevant_partial",
    "C04_accepted_no_overread_partial"
   ],
   "note": "As stated false (C04_no_overread_refuted: \"[ \" reads *end); proved: safe when *end is readable, its value does not influence the returned iterator, accepted texts are parsed without reading it. The exact condition for undefined behaviour of the typed readers is C95."
  },
  {
   "property": "C05",
   "status": "proved",
   "theorems": [
    "C05_in_range",
    "C05_progress"
   ],
   "note": ""
  },
  {
   "property": "C06",
   "status": "proved",
   "theorems": [
    "C06_error_iff_end"
   ],
   "note": ""
  },
  {
   "property": "C07",
   "status": "proved",
   "theorems": [
    "C07_all_descriptions",
    "C07_success_untouched",
    "C07_float",
    "C07_parser_sticky"
   ],
   "note": "Parser entry points and every description (predicate desc in Desc.v)."
  },
  {
   "property": "C08",
   "status": "proved",
   "theorems": [
    "C08_same_position"
   ],
   "note": ""
  },
  {
   "property": "C09",
   "status": "proved",
   "theorems": [
    "C09_all_descriptions",
    "C09_all_strerror",
    "C09_strerror_defined",
    "C09_parser_tail"
   ],
   "note": "Parser entry points and every description; strerror functions defined on the range."
  },
  {
   "property": "C10",
   "status": "proved",
   "theorems": [
    "C10_skips_gap",
    "C10_blanks",
    "C10_comment",
    "C10_unterminated"
   ],
   "note": ""
  },
  {
   "property": "C11",
   "status": "proved",
   "theorems": [
    "C11_despace_tokens",
    "C11_despace_document",
    "C11_despace_rfc",
    "C11_idempotent_everywhere_refuted"
   ],
   "note": "Idempotence holds for JSON documents; on arbitrary garbage it is refuted."
  },
  {
   "property": "C12",
   "status": "proved",
   "theorems": [
    "C12_number_exact",
    "C12_number_longest",
    "C12_number_total"
   ],
   "note": ""
  },
  {
   "property": "C13",
   "status": "proved",
   "theorems": [
    "C13_string_exact",
    "C13_string_decides"
   ],
   "note": ""
  },
  {
   "property": "C14",
   "status": "proved",
   "theorems": [
    "C14_canonical",
    "C14_numeral_unique"
   ],
   "note": ""
  },
  {
   "property": "C15",
   "status": "proved",
   "theorems": [
    "C15_buffer_suffices"
   ],
   "note": ""
  },
  {
   "property": "C16",
   "status": "partial",
   "theorems": [
    "C16_read_in_range_partial",
    "C16_read_in_range_refuted"
   ],
   "note": "Everything except the minimum of signed types of at least 32 bits, where the read loop overflows (refuted by witness). The exact set of surviving values is C91."
  },
  {
   "property": "C17",
   "status": "partial",
   "theorems": [
    "C17_int_roundtrip_partial",
    "C17_int_roundtrip_full",
    "C17_int_roundtrip_refuted"
   ],
   "note": "Full for unsigned and for 8/16 bit types; for wider signed types all values but the minimum (refuted: signed overflow). The exact set of surviving values is C91."
  },
  {
   "property": "C18",
   "status": "partial",
   "theorems": [
    "C18_range_error_refuted",
    "C18_wraps_partial",
    "C18_overflow_ub_partial"
   ],
   "note": "False for the code: out-of-range numerals wrap modulo 2^bits silently (narrow/unsigned) or overflow (signed >= 32 bits); both behaviours proved for all such numerals."
  },
  {
   "property": "C19",
   "status": "partial",
   "theorems": [
    "C19_string_roundtrip_partial",
    "C19_string_codec_partial",
    "C19_string_roundtrip_refuted"
   ],
   "note": "Holds for all bytes except control characters without short escape and 0xF8..0xFD; refuted for those. The exact set of surviving values is C91."
  },
  {
   "property": "C20",
   "status": "proved",
   "theorems": [
    "C20_utf8_text_preserved",
    "C20_any_bytes"
   ],
   "note": ""
  },
  {
   "property": "C21",
   "status": "partial",
   "theorems": [
    "C21_all_descriptions",
    "C21_bar",
    "C21_enum",
    "C21_flags",
    "C21_string_output_json",
    "C21_string_output_refuted",
    "C21_quoted",
    "C21_pointer",
    "C21_raw",
    "C21_raw_quoted_refuted"
   ],
   "note": "Every composition on the domains of predicate jdesc; refuted for non-UTF-8 strings, raw_quoted of a string, and cut floats."
  },
  {
   "property": "C22",
   "status": "partial",
   "theorems": [
    "C22_escapes_decode_partial",
    "C22_bmp_is_rfc",
    "C22_escapes_decode_refuted"
   ],
   "note": "Holds without surrogate pairs and control characters in \\u form; refuted for both."
  },
  {
   "property": "C23",
   "status": "proved",
   "theorems": [
    "C23_char_array_bounds"
   ],
   "note": ""
  },
  {
   "property": "C24",
   "status": "partial",
   "theorems": [
    "C24_char_array_roundtrip_partial",
    "C24_char_array_roundtrip_refuted"
   ],
   "note": "Same restriction on bytes as C19; refuted otherwise. The exact set of surviving values is C91."
  },
  {
   "property": "C25",
   "status": "proved",
   "theorems": [
    "C25_bool_roundtrip",
    "C25_bool_exact"
   ],
   "note": ""
  },
  {
   "property": "C26",
   "status": "proved",
   "theorems": [
    "C26_null_float",
    "C26_null_object",
    "C26_null_object_array",
    "C26_null_int",
    "C26_null_bool",
    "C26_null_string",
    "C26_null_char_array",
    "C26_null_vector",
    "C26_null_set",
    "C26_null_multiset",
    "C26_null_dict",
    "C26_null_map",
    "C26_null_multimap",
    "C26_null_std_array",
    "C26_null_c_array"
   ],
   "note": "Integers, bool, string, char[N], sequences, dictionaries, fixed arrays (element-wise), objects and objects as arrays."
  },
  {
   "property": "C27",
   "status": "proved",
   "theorems": [
    "C27_vector_roundtrip"
   ],
   "note": ""
  },
  {
   "property": "C28",
   "status": "proved",
   "theorems": [
    "C28_vector_reads_elements",
    "C28_vector_accepts_only"
   ],
   "note": ""
  },
  {
   "property": "C29",
   "status": "proved",
   "theorems": [
    "C29_array_bounds_std",
    "C29_array_bounds_c",
    "C29_array_reads_prefix",
    "C29_array_targets",
    "C29_array_too_many"
   ],
   "note": ""
  },
  {
   "property": "C30",
   "status": "proved",
   "theorems": [
    "C30_std_array_roundtrip",
    "C30_c_array_roundtrip"
   ],
   "note": ""
  },
  {
   "property": "C31",
   "status": "proved",
   "theorems": [
    "C31_multi_order",
    "C31_multi_order_unique",
    "C31_set_sorted",
    "C31_multi_sorted",
    "C31_first_wins",
    "C31_multi_keeps_all",
    "C31_set_roundtrip",
    "C31_multiset_roundtrip",
    "C31_map_roundtrip",
    "C31_multimap_roundtrip",
    "C31_int_order",
    "C31_string_order"
   ],
   "note": "For any strict weak order; unordered containers are C65. The order among equivalent elements is fixed by C31_multi_order and C31_multi_order_unique."
  },
  {
   "property": "C32",
   "status": "proved",
   "theorems": [
    "C32_dict_roundtrip",
    "C32_map_roundtrip",
    "C32_field_reads"
   ],
   "note": "Strings in the domain of C19 as keys."
  },
  {
   "property": "C33",
   "status": "proved",
   "theorems": [
    "C33_object_roundtrip",
    "C33_foo",
    "C33_member_value_roundtrip"
   ],
   "note": ""
  },
  {
   "property": "C34",
   "status": "proved",
   "theorems": [
    "C34_any_order",
    "C34_reads_fields"
   ],
   "note": ""
  },
  {
   "property": "C35",
   "status": "proved",
   "theorems": [
    "C35_nonstrict_skips",
    "C35_strict_rejects"
   ],
   "note": "Strict part for end iterators that may be read; nonstrict part for objects in which no listed name is repeated."
  },
  {
   "property": "C36",
   "status": "partial",
   "theorems": [
    "C36_success",
    "C36_not_members",
    "C36_missing_keep",
    "C36_nested_keep",
    "C36_property_fresh",
    "C36_missing_keep_malformed_refuted"
   ],
   "note": "For well-formed objects in which no listed name is repeated (C36_missing_keep); for every text read without error, if the name does not stand in it in quotes (C36_success, member_if alternatives excepted); fields that are no members for every text (C36_not_members). Refuted for malformed input (truncated name); alternatives of a member_if may be reset, see C39."
  },
  {
   "property": "C37",
   "status": "partial",
   "theorems": [
    "C37_last_wins_partial",
    "C37_last_wins_refuted"
   ],
   "note": "Holds while some listed member does not occur; refuted otherwise (after the last listed member everything is skipped)."
  },
  {
   "property": "C38",
   "status": "partial",
   "theorems": [
    "C38_escaped_names_refuted",
    "C38_raw_match_partial",
    "C38_unescaped_partial"
   ],
   "note": "False for the code. Proved: names are compared as raw bytes (a listed member takes the value iff the bytes between the quotes are its name, escaped names are never taken), and a name written without escapes denotes its bytes."
  },
  {
   "property": "C39",
   "status": "partial",
   "theorems": [
    "C39_unrelated_member_if_refuted",
    "C39_listed_before_partial",
    "C39_effect_partial"
   ],
   "note": "False for the code. Proved: members listed before the member_if and present in list order leave it alone; any other member of another name keeps the alternative tried first and resets the other one to what it reads from null."
  },
  {
   "property": "C40",
   "status": "proved",
   "theorems": [
    "C40_member_if_writes",
    "C40_member_if_roundtrip",
    "C40_int_or_string",
    "C40_different_names_refuted"
   ],
   "note": "Reading back needs equal names of both alternatives (refuted otherwise) and a first alternative that rejects the texts of the other."
  },
  {
   "property": "C41",
   "status": "proved",
   "theorems": [
    "C41_object_array_roundtrip",
    "C41_object_array_prefix",
    "C41_object_array_too_many",
    "C41_like_object"
   ],
   "note": ""
  },
  {
   "property": "C42",
   "status": "proved",
   "theorems": [
    "C42_enum_roundtrip",
    "C42_known_name",
    "C42_strict_unknown",
    "C42_nonstrict_unknown"
   ],
   "note": "Names without quotes and without repetitions; null is not accepted by enumerators."
  },
  {
   "property": "C43",
   "status": "proved",
   "theorems": [
    "C43_flags_string_roundtrip",
    "C43_flags_array_roundtrip",
    "C43_flags_string_any_order",
    "C43_flags_array_any_order",
    "C43_flags_missing_comma_refuted"
   ],
   "note": "Names without repetitions; string form: non-empty names without separator, whitespace, slash or quote."
  },
  {
   "property": "C44",
   "status": "partial",
   "theorems": [
    "C44_time_roundtrip_partial",
    "C44_seconds_roundtrip",
    "C44_text",
    "C44_negative_refuted",
    "C44_int32_refuted",
    "C44_unsigned_refuted"
   ],
   "note": "Proved: seconds for every integer type; whole seconds in every unit; microseconds for non-negative values; milliseconds for non-negative values of a signed 64-bit type. Refuted elsewhere: negative sub-second parts are lost, int32 milliseconds overflow, unsigned milliseconds get a bogus component. The exact set of surviving values is C93."
  },
  {
   "property": "C45",
   "status": "partial",
   "theorems": [
    "C45_sum",
    "C45_unterminated",
    "C45_truncated_refuted",
    "C45_overrun_refuted",
    "C45_garbage_refuted",
    "C45_overflow_refuted",
    "C45_law"
   ],
   "note": "Sum proved for all component lists in any order (weights within T) and missing closing quote after a component is an error. Refuted: cut after digits is accepted, cut inside mks steps past the end, unknown units ignored, overflow. The exact condition for undefined behaviour of the typed readers is C95."
  },
  {
   "property": "C46",
   "status": "proved",
   "theorems": [
    "C46_size_roundtrip",
    "C46_size_read",
    "C46_large_refuted",
    "C46_no_suffix"
   ],
   "note": "All T of 2, 4, 8 bytes, all positive metrics, all values with a 63-bit byte count; one-byte T does not compile. The exact set of values is C94."
  },
  {
   "property": "C47",
   "status": "partial",
   "theorems": [
    "C47_size_overrun_refuted",
    "C47_size_safe_partial",
    "C47_short_safe_partial",
    "C47_law"
   ],
   "note": "False for the code (32 decoded bytes: strlen runs past the buffer, refuted for every such string); proved: safe whenever the decoded buffer contains a NUL and the number is below 2^23. The exact condition for undefined behaviour of the typed readers is C95."
  },
  {
   "property": "C48",
   "status": "proved",
   "theorems": [
    "C48_quoted_roundtrip",
    "C48_quoted_json_roundtrip",
    "C48_nested_roundtrip",
    "C48_unquoted_roundtrip",
    "C48_unquoted_refuted"
   ],
   "note": "SerQ=true (either ReqQ), incl. n-fold nesting; bytes restricted as in C19, automatic for descriptions that write JSON. SerQ=ReqQ=false: texts not starting with a quote (refuted otherwise)."
  },
  {
   "property": "C49",
   "status": "partial",
   "theorems": [
    "C49_trailing_garbage_refuted",
    "C49_inner_error_partial"
   ],
   "note": "False for the code (trailing garbage accepted, refuted); proved: every inner error is reported with its code."
  },
  {
   "property": "C50",
   "status": "proved",
   "theorems": [
    "C50_raw_exact",
    "C50_iterator_pair_exact",
    "C50_raw_capture",
    "C50_raw_json",
    "C50_raw_roundtrip",
    "C50_raw_quoted_roundtrip"
   ],
   "note": "The captured bytes are modelled by value; iterator lifetimes of iterator_pair are not."
  },
  {
   "property": "C51",
   "status": "partial",
   "theorems": [
    "C51_pointer_roundtrip",
    "C51_malformed_null_refuted",
    "C51_null",
    "C51_nested_null_refuted"
   ],
   "note": "Round trip proved; malformed null is accepted (refuted)."
  },
  {
   "property": "C52",
   "status": "partial",
   "theorems": [
    "C52_all_plain",
    "C52_enum",
    "C52_flags",
    "C52_float",
    "C52_pointer_null_refuted",
    "C52_raw_quoted_refuted",
    "C52_quoted",
    "C52_quoted_plain",
    "C52_raw"
   ],
   "note": "Every description without pointer, raw_quoted, time_interval and size_value outside quotes (predicate plain_desc); refuted for those four."
  },
  {
   "property": "C53",
   "status": "proved",
   "theorems": [
    "C53_first_accepting",
    "C53_none_accepts",
    "C53_only"
   ],
   "note": "Complete: index, targets and *e in both ways the function can return."
  },
  {
   "property": "C54",
   "status": "proved",
   "theorems": [
    "C54_merge",
    "C54_no_list",
    "C54_idempotent"
   ],
   "note": ""
  },
  {
   "property": "C55",
   "status": "proved",
   "theorems": [
    "C55_first_offered",
    "C55_none_offered",
    "C55_no_names"
   ],
   "note": ""
  },
  {
   "property": "C56",
   "status": "partial",
   "theorems": [
    "C56_agree_partial",
    "C56_form4_refuted",
    "C56_form3_refuted",
    "C56_order"
   ],
   "note": "False for the code: with only the two-argument form the name is ignored, with only T create_schema(string) the call does not compile (both refuted). Agreement proved when T has both or neither."
  },
  {
   "property": "C57",
   "status": "proved",
   "theorems": [
    "C57_what",
    "C57_what_injective",
    "C57_message_faithful",
    "C57_codes",
    "C57_where",
    "C57_where_inside",
    "C57_trace",
    "C57_message_trace",
    "C57_no_error",
    "C57_other_range_refuted"
   ],
   "note": "trace is proved for tail_of within the range, which C09_strerror_defined shows for every description; outside it is undefined (refuted)."
  },
  {
   "property": "C58",
   "status": "proved",
   "theorems": [
    "C58_literal",
    "C58_length",
    "C58_no_apostrophe"
   ],
   "note": ""
  },
  {
   "property": "C59",
   "status": "proved",
   "theorems": [
    "C59_all_terminate",
    "C59_all_in_range",
    "C59_all_defined",
    "C59_enum",
    "C59_enum_safe",
    "C59_flags",
    "C59_flags_safe",
    "C59_float",
    "C59_quoted",
    "C59_raw_quoted",
    "C59_raw",
    "C59_pointer",
    "C59_quoted_safe",
    "C59_raw_quoted_safe",
    "C59_raw_safe",
    "C59_pointer_safe"
   ],
   "note": "Every description; undefined behaviour excluded for safe_desc (no wide signed integers, time_interval, size_value) with readable *end."
  },
  {
   "property": "C60",
   "status": "partial",
   "theorems": [
    "C60_where_exact_refuted",
    "C60_where_partial",
    "C60_first_bad_unique",
    "C60_kinds_partial",
    "C60_colon_partial",
    "C60_number_partial",
    "C60_literal_partial",
    "C60_end_partial"
   ],
   "note": "False for the code as stated (trux). Proved: end-of-text, string, member, bracket and no-value errors are reported exactly at the first byte that rules out every completion; a missing colon is reported one byte late, a malformed number at the end, a malformed literal within four bytes of the end; these are all kinds."
  },
  {
   "property": "C61",
   "status": "partial",
   "theorems": [
    "C61_short_partial",
    "C61_long_refuted",
    "C61_leading_zero_refuted",
    "C61_law_inhabited"
   ],
   "note": "False for tokens longer than the buffer and after leading zeros (refuted, for every stream conversion satisfying scan_law); proved for tokens that fit."
  },
  {
   "property": "C62",
   "status": "partial",
   "theorems": [
    "C62_scientific",
    "C62_fixed_partial",
    "C62_point_refuted",
    "C62_integer_part_refuted",
    "C62_nan_refuted"
   ],
   "note": "Proved for scientific notation and for fixed texts that fit; refuted for longer fixed texts (cut after the point, inside the integer part) and for NaN/infinities."
  },
  {
   "property": "C63",
   "status": "partial",
   "theorems": [
    "C63_roundtrip_partial",
    "C63_output_json_partial",
    "C63_cut_refuted"
   ],
   "note": "For values whose text fits the buffer; refuted for fixed texts that are cut. Text conversion is a parameter; for the conversions of the C++ streams see C110-C112."
  },
  {
   "property": "C64",
   "status": "partial",
   "theorems": [
    "C64_all_roundtrip",
    "C64_injective",
    "C64_bar",
    "C64_member_if_nested"
   ],
   "note": "Every composition on the domains of predicate rdesc (member_if with equal names and distinguishable alternatives included). Outside the domains refuted elsewhere (C19, C40, C44, C48, C51, C63). Unordered containers: up to order, C65."
  },
  {
   "property": "C65",
   "status": "proved",
   "theorems": [
    "C65_first_wins",
    "C65_keeps_all",
    "C65_always_distinct",
    "C65_unordered_set_roundtrip",
    "C65_unordered_map_roundtrip",
    "C65_unordered_multiset_roundtrip",
    "C65_unordered_multimap_roundtrip",
    "C65_null_empties"
   ],
   "note": "The hash table is a parameter constrained only by the container requirements; element types that round-trip."
  },
  {
   "property": "C66",
   "status": "partial",
   "theorems": [
    "C66_same_result_partial",
    "C66_same_ub_partial",
    "C66_probe_partial",
    "C66_time_partial",
    "C66_time_refuted",
    "C66_quoted_refuted",
    "C66_raw_quoted_refuted",
    "C66_size_refuted"
   ],
   "note": "Every description except quoted, raw_quoted, time_interval and size_value (predicate pure_desc), for all of which it is refuted; time_interval still treats a null pointer like a clean record."
  },
  {
   "property": "C67",
   "status": "partial",
   "theorems": [
    "C67_end_partial",
    "C67_success_partial",
    "C67_string_refuted",
    "C67_container_refuted",
    "C67_size_refuted",
    "C67_array_refuted"
   ],
   "note": "Every description except size_value and fixed-size arrays of null-rejecting elements (predicate end_desc), unless the text contains a bad \\u or \\x escape; each exception refuted with a witness."
  },
  {
   "property": "C68",
   "status": "proved",
   "theorems": [
    "C68_typed",
    "C68_history",
    "C68_bar"
   ],
   "note": "For targets that hold a value of the type before the call (predicate tdesc); C68_ex_old shows that this is needed. Calls with undefined behaviour are excluded (C16, C59)."
  },
  {
   "property": "C69",
   "status": "partial",
   "theorems": [
    "C69_if",
    "C69_int_or_string_held",
    "C69_int_or_string",
    "C69_both_set_refuted",
    "C69_if_nested",
    "C69_success",
    "C69_mild_strings",
    "C69_mild_chars",
    "C69_enumerators",
    "C69_raw",
    "C69_seconds",
    "C69_bytes",
    "C69_xescape_refuted",
    "C69_time_refuted",
    "C69_size_refuted",
    "C69_stable",
    "C69_fixpoint",
    "C69_json",
    "C69_integers",
    "C69_string_refuted"
   ],
   "note": "For descriptions whose whole type is in the round-trip domain: all integer types (a signed type of at least the size of int never reads its minimum, so C69_integers has no exception), bool, flags, pointers to bool or numbers, containers, objects and object arrays of these. For strings the claim is false (C69_string_refuted; C91 says exactly which strings are read back). For readings without error (C69_success) also: strings and char arrays read from texts without control characters that have no short escape, without 0xF8 to 0xFD and without \\x escapes of those; strict enumerators, raw_value, raw_quoted, quoted, pointers, seconds of any type, bytes in a signed type, and containers, objects and object arrays of these; with member_if (C69_if) the struct keeps whatever invariant its members and alternatives keep, for example that at most one alternative is set, and is then stable (C69_int_or_string; C69_both_set_refuted for targets without the invariant). Refuted for \\x, negative milliseconds and sizes beyond int64_t."
  },
  {
   "property": "C70",
   "status": "partial",
   "theorems": [
    "C70_accepts",
    "C70_parse",
    "C70_plain",
    "C70_rejects",
    "C70_string_refuted",
    "C70_utf8_refuted"
   ],
   "note": "Unconditional for integers, booleans, floats, raw values, containers, objects and object arrays of these. With strings the consumed text must have no \\x escape and no cut UTF-8 character, with string keys no null key, with enumerators no skipped control bytes (C70_accepts, predicate tame). flags, time_interval, pointers, nonstrict enumerators and raw_quoted with required quotes are excluded; witnesses show that every condition is needed."
  },
  {
   "property": "C71",
   "status": "proved",
   "theorems": [
    "C71_holds_vector",
    "C71_opening",
    "C71_separator",
    "C71_truncated",
    "C71_element",
    "C71_field",
    "C71_array_opening",
    "C71_array_separator",
    "C71_array_truncated",
    "C71_array_extra",
    "C71_array_element"
   ],
   "note": "Covers the sequence and ordered containers, dictionaries and both fixed-size arrays. For std::array the expected text of a missing comma is empty."
  },
  {
   "property": "C72",
   "status": "partial",
   "theorems": [
    "C72_if",
    "C72_if_array",
    "C72_if_refuted",
    "C72_opening",
    "C72_value",
    "C72_colon",
    "C72_separator",
    "C72_name",
    "C72_unknown",
    "C72_rest_separator",
    "C72_rest_unknown",
    "C72_first_unknown_refuted",
    "C72_separator_refuted",
    "C72_cases",
    "C72_array_opening",
    "C72_array_element",
    "C72_array_separator",
    "C72_array_extra"
   ],
   "note": "Proved without member_if members; for a member_if whose alternatives both refuse, the report is that of the alternative tried last (C72_if, C72_if_array), every other outcome with member_if is determined by C89. Once all listed members have come in list order the code reports the last unlisted member and expects a comma: refuted with witnesses, and that behaviour is proved too (C72_rest_*)."
  },
  {
   "property": "C73",
   "status": "proved",
   "theorems": [
    "C73_integer",
    "C73_bool",
    "C73_string",
    "C73_wrappers",
    "C73_at_end"
   ],
   "note": "Strings: literals without surrogate pairs (lmean_bmp) before the failing place; a bad hex digit is covered by C67."
  },
  {
   "property": "C74",
   "status": "proved",
   "theorems": [
    "C74_whole",
    "C74_prefix",
    "C74_same_iff",
    "C74_roundtrip",
    "C74_long_refuted"
   ],
   "note": "Numbers longer than the reader's buffer are written whole but read back cut (C74_long_refuted)."
  },
  {
   "property": "C75",
   "status": "partial",
   "theorems": [
    "C75_gaps",
    "C75_despace",
    "C75_despace_rfc",
    "C75_trailing_refuted",
    "C75_no_elements_refuted",
    "C75_raw_refuted",
    "C75_apart_refuted",
    "C75_start_refuted",
    "C75_nonstrict_enum_refuted",
    "C75_flags_refuted",
    "C75_time_refuted",
    "C75_size",
    "C75_size_refuted"
   ],
   "note": "All descriptions except raw values, flags, time_interval, size_value and nonstrict enumerators (gdesc); for texts that start with a token and whose numbers are followed by a bracket, comma or colon. std::array and C arrays need at least one element and texts without trailing commas. Each condition and exclusion is shown to be needed by a witness (the C75_*_refuted theorems); size_value obeys the weaker C75_size, which leaves open where a failed reading stops."
  },
  {
   "property": "C76",
   "status": "proved",
   "theorems": [
    "C76_string",
    "C76_chars"
   ],
   "note": "Both directions; a \\uXXXX escape of a control character without short form is kept undecoded, surrogates are encoded one by one and continuation bytes are not checked: all part of the characterisation."
  },
  {
   "property": "C77",
   "status": "proved",
   "theorems": [
    "C77_int",
    "C77_float",
    "C77_enum"
   ],
   "note": "Both directions; booleans are C25. Integers out of range are stored modulo 2^bits, wide signed ones must fit (otherwise undefined behaviour, C16)."
  },
  {
   "property": "C78",
   "status": "proved",
   "theorems": [
    "C78_vector",
    "C78_container",
    "C78_field",
    "C78_std_array",
    "C78_c_array"
   ],
   "note": "Both directions, relative to the texts the element description reads (dlaw, which every description satisfies: C59). A comma before the closing bracket is part of the characterisation."
  },
  {
   "property": "C79",
   "status": "proved",
   "theorems": [
    "C79_object",
    "C79_object_array"
   ],
   "note": ""
  },
  {
   "property": "C80",
   "status": "proved",
   "theorems": [
    "C80_bool",
    "C80_pointer",
    "C80_quoted",
    "C80_raw_quoted",
    "C80_raw_value",
    "C80_member_value"
   ],
   "note": ""
  },
  {
   "property": "C81",
   "status": "proved",
   "theorems": [
    "C81_time",
    "C81_size"
   ],
   "note": ""
  },
  {
   "property": "C82",
   "status": "proved",
   "theorems": [
    "C82_parse",
    "C82_total",
    "C82_exclusive",
    "C82_unique",
    "C82_reports",
    "C82_overreads",
    "C82_null",
    "C82_bool",
    "C82_number",
    "C82_integer",
    "C82_string",
    "C82_hex",
    "C82_utf8",
    "C82_member",
    "C82_member_accepts",
    "C82_object",
    "C82_array"
   ],
   "note": "Both directions for all byte strings, including what depends on the byte at *end. The description follows the code where it reports oddly (missing colon one byte late, numbers without position)."
  },
  {
   "property": "C83",
   "status": "proved",
   "theorems": [
    "C83_total",
    "C83_string",
    "C83_chars",
    "C83_string_total",
    "C83_int",
    "C83_bool",
    "C83_float",
    "C83_enum"
   ],
   "note": "Both directions. Undefined behaviour (wide signed overflow, C16) is the third outcome of C83_total; flags are covered by C87."
  },
  {
   "property": "C84",
   "status": "proved",
   "theorems": [
    "C84_pointer",
    "C84_quoted",
    "C84_raw_value",
    "C84_raw_quoted",
    "C84_member_value",
    "C84_time",
    "C84_size"
   ],
   "note": "Both directions, relative to the failures of the wrapped description."
  },
  {
   "property": "C85",
   "status": "partial",
   "theorems": [
    "C85_time",
    "C85_negative_microseconds",
    "C85_negative_milliseconds",
    "C85_negative_refuted",
    "C85_unique"
   ],
   "note": "Canonical on the domain of C44 (whole seconds of any type, non-negative microseconds, non-negative milliseconds of int64_t). Refuted below zero: the exact text written there is given, and for milliseconds no such value survives (C85_negative_refuted). Fractions of other integer types overflow (C44). The exact set of surviving values is C93."
  },
  {
   "property": "C86",
   "status": "proved",
   "theorems": [
    "C86_size",
    "C86_unique",
    "C86_overflow"
   ],
   "note": "Exact text, both directions. uint64_t values from 2^63 on are outside (C46_large_refuted). The exact set of values is C94."
  },
  {
   "property": "C87",
   "status": "proved",
   "theorems": [
    "C87_reads",
    "C87_faults",
    "C87_total",
    "C87_words_refuted"
   ],
   "note": "Both directions, success and failure, and uniqueness of the description. C87_words_refuted: with a space as separator a listed name behind two spaces is skipped."
  },
  {
   "property": "C88",
   "status": "proved",
   "theorems": [
    "C88_container",
    "C88_vector",
    "C88_unordered",
    "C88_field",
    "C88_std_array",
    "C88_c_array"
   ],
   "note": "Both directions, success, failure and continuing behind an error, for sequences, dictionaries, objects and the unordered containers; runs with undefined behaviour are those without an outcome (C51, C52)."
  },
  {
   "property": "C89",
   "status": "proved",
   "theorems": [
    "C89_struct",
    "C89_array"
   ],
   "note": "Both directions, success, failure and continuing behind an error, including member_if. Names must be free of quotes and backslashes (other names never match, C38)."
  },
  {
   "property": "C90",
   "status": "proved",
   "theorems": [
    "C90_accepted",
    "C90_always",
    "C90_std_array",
    "C90_unordered",
    "C90_float_element_refuted",
    "C90_quoted_element_refuted",
    "C90_member_refuted",
    "C90_struct_refuted"
   ],
   "note": "C90_float_element_refuted, C90_quoted_element_refuted, C90_member_refuted, C90_struct_refuted: the exceptions named in the statement. The empty text is excluded from C90_always (numbers leave their target alone there)."
  },
  {
   "property": "C91",
   "status": "proved",
   "theorems": [
    "C91_string_exact",
    "C91_chars_exact",
    "C91_respelt",
    "C91_settles",
    "C91_oversized",
    "C91_int"
   ],
   "note": "Both directions. Strings longer than INT_MAX bytes after respelling are outside C91_respelt."
  },
  {
   "property": "C92",
   "status": "proved",
   "theorems": [
    "C92_one_byte",
    "C92_closed",
    "C92_truncated",
    "C92_progress",
    "C92_number_refuted",
    "C92_pointer_refuted",
    "C92_time_refuted"
   ],
   "note": ""
  },
  {
   "property": "C93",
   "status": "proved",
   "theorems": [
    "C93_milliseconds",
    "C93_microseconds",
    "C93_only_int64",
    "C93_negative"
   ],
   "note": "Both directions, every integer type of 2, 4 and 8 bytes."
  },
  {
   "property": "C94",
   "status": "proved",
   "theorems": [
    "C94_sizes",
    "C94_signed_bytes",
    "C94_large_bytes"
   ],
   "note": "Both directions, every integer type of 2, 4 and 8 bytes and every metric below 2^63."
  },
  {
   "property": "C95",
   "status": "proved",
   "theorems": [
    "C95_integer",
    "C95_time",
    "C95_time_reported",
    "C95_size",
    "C95_size_reported",
    "C95_never",
    "C95_container",
    "C95_unordered",
    "C95_field",
    "C95_std_array",
    "C95_c_array",
    "C95_struct",
    "C95_object_array",
    "C95_pointer",
    "C95_raw",
    "C95_raw_quoted",
    "C95_quoted",
    "C95_member_value"
   ],
   "note": "Both directions for every typed reader, including the unordered containers; a null json_error pointer and flags without names are not covered."
  },
  {
   "property": "C96",
   "status": "proved",
   "theorems": [
    "C96_written",
    "C96_injective",
    "C96_prefix_free",
    "C96_string",
    "C96_chars",
    "C96_int",
    "C96_enum_refuted",
    "C96_raw_refuted",
    "C96_pointer_refuted",
    "C96_time_refuted",
    "C96_member_if_refuted"
   ],
   "note": "For idesc: everything in rdesc, all integers, all byte strings, char arrays up to the first zero, numbers with an injective format, and what is built from these. The types left out are covered by C96_*_refuted witnesses, except unordered containers, whose order of elements is a parameter of the model."
  },
  {
   "property": "C97",
   "status": "proved",
   "theorems": [
    "C97_json",
    "C97_output",
    "C97_despace_output",
    "C97_despace",
    "C97_fixed",
    "C97_raw_refuted"
   ],
   "note": ""
  },
  {
   "property": "C98",
   "status": "proved",
   "theorems": [
    "C98_same",
    "C98_deterministic",
    "C98_to_vector",
    "C98_to_set",
    "C98_to_multiset",
    "C98_to_dict",
    "C98_to_map",
    "C98_to_array",
    "C98_from_array",
    "C98_to_pointer",
    "C98_from_pointer",
    "C98_from_null",
    "C98_int",
    "C98_int_wraps",
    "C98_enum_string",
    "C98_to_raw",
    "C98_from_raw",
    "C98_string_chars",
    "C98_struct",
    "C98_left_out",
    "C98_struct_dict",
    "C98_strict_refuted",
    "C98_int_overflow_refuted",
    "C98_chars_refuted"
   ],
   "note": "Structs without member_if. The refuted theorems show what happens when a hypothesis is missing."
  },
  {
   "property": "C99",
   "status": "proved",
   "theorems": [
    "C99_defer",
    "C99_keep",
    "C99_container_reads",
    "C99_container_kept",
    "C99_dict_reads",
    "C99_dict_kept",
    "C99_struct",
    "C99_raw_member",
    "C99_same_member",
    "C99_request",
    "C99_twice_refuted",
    "C99_strings_refuted"
   ],
   "note": "Deferring for everything in tight (C92), keeping for everything in sdesc (C70) on texts without its quirks; C99_strings_refuted shows that this condition is needed and C99_twice_refuted that the struct theorem has no converse."
  },
  {
   "property": "C100",
   "status": "proved",
   "theorems": [
    "C100_null",
    "C100_bool",
    "C100_integer",
    "C100_hex",
    "C100_utf8",
    "C100_array",
    "C100_object",
    "C100_member",
    "C100_kinds",
    "C100_complete",
    "C100_both",
    "C100_space",
    "C100_no_space",
    "C100_is_utf8",
    "C100_nothing",
    "C100_prefix_refuted"
   ],
   "note": ""
  },
  {
   "property": "C101",
   "status": "proved",
   "theorems": [
    "C101_exact",
    "C101_total",
    "C101_error",
    "C101_written",
    "C101_defined_refuted",
    "C101_reports",
    "C101_overreads"
   ],
   "note": ""
  },
  {
   "property": "C102",
   "status": "proved",
   "theorems": [
    "C102_ex11",
    "C102_ex16",
    "C102_ex11_numbers",
    "C102_ex16_numbers",
    "C102_ex16_short",
    "C102_comment_refuted",
    "C102_defined_refuted"
   ],
   "note": ""
  },
  {
   "property": "C103",
   "status": "proved",
   "theorems": [
    "C103_set",
    "C103_multiset",
    "C103_unordered",
    "C103_unordered_multi",
    "C103_map",
    "C103_from_array",
    "C103_to_array",
    "C103_full_refuted"
   ],
   "note": ""
  },
  {
   "property": "C104",
   "status": "proved",
   "theorems": [
    "C104_lengths",
    "C104_int_width",
    "C104_int_attained",
    "C104_string_attained",
    "C104_reach",
    "C104_buffer",
    "C104_null_reach_refuted"
   ],
   "note": ""
  },
  {
   "property": "C105",
   "status": "proved",
   "theorems": [
    "C105_written_document",
    "C105_denotes_json",
    "C105_one_document",
    "C105_documents_differ"
   ],
   "note": "Descriptions in says: integers, booleans, UTF-8 strings, enumerators, raw JSON, containers, dictionaries, structs (with member_if), arrays of members, quoted, pointers, char arrays, flags, floating-point numbers whose text fits the buffer; not sizes and times."
  },
  {
   "property": "C106",
   "status": "proved",
   "theorems": [
    "C106_document_read",
    "C106_simple_denotes",
    "C106_exchange",
    "C106_other_spellings_refuted"
   ],
   "note": "For the spellings in simple and the descriptions in sees. The spellings left out are read as something else (C106_other_spellings_refuted)."
  },
  {
   "property": "C107",
   "status": "proved",
   "theorems": [
    "C107_lines",
    "C107_joined",
    "C107_exact",
    "C107_ends",
    "C107_torn",
    "C107_prefix_defined",
    "C107_final",
    "C107_time_refuted"
   ],
   "note": "The loop is the caller's, written down in SpecStream.v. Torn logs: descriptions in both tight true and cuttable. C107_time_refuted shows why time_interval is not among them."
  },
  {
   "property": "C108",
   "status": "proved",
   "theorems": [
    "C108_depth",
    "C108_levels",
    "C108_one",
    "C108_shallow",
    "C108_any",
    "C108_bounded_refuted"
   ],
   "note": "The fuel of parse_value_f counts nested calls of parse_value (parser.hpp:533-544); the fuel of items_loop counts turns of a loop and is derived from the length. C108_bounded_refuted: no fixed number of levels is enough."
  },
  {
   "property": "C109",
   "status": "proved",
   "theorems": [
    "C109_size",
    "C109_fresh",
    "C109_string",
    "C109_containers",
    "C109_dictionaries",
    "C109_raw_array_refuted"
   ],
   "note": "Descriptions in weighs: all but structs with member_if of raw values and fixed-size arrays of raw values (C109_raw_array_refuted) or of optionally quoted raw values; hash tables by what insertion adds to their contents. The rest of a pointee or a fixed-size part counts nothing."
  },
  {
   "property": "C110",
   "status": "proved",
   "theorems": [
    "C110_nearest",
    "C110_one",
    "C110_denotes",
    "C110_long_refuted",
    "C110_finite",
    "C110_null",
    "C110_cut_refuted",
    "C110_exact",
    "C110_behind_refuted"
   ],
   "note": "Numbers longer than the buffer are refuted (C110_long_refuted); cut behind the exponent mark they read as 0 (C110_cut_refuted); digits behind a leading zero change the value (C110_behind_refuted)."
  },
  {
   "property": "C111",
   "status": "proved",
   "theorems": [
    "C111_text",
    "C111_again",
    "C111_back",
    "C111_spaced",
    "C111_back_refuted",
    "C111_decimal",
    "C111_double",
    "C111_large_refuted"
   ],
   "note": "Values above 10^18-1 may be cut: C111_large_refuted. Values with more decimal digits do not come back: C111_back_refuted."
  },
  {
   "property": "C112",
   "status": "proved",
   "theorems": [
    "C112_text",
    "C112_again",
    "C112_float_refuted",
    "C112_back",
    "C112_back_refuted",
    "C112_not_finite_refuted"
   ],
   "note": "Text stability is refuted for float (C112_float_refuted); values with more than seven digits do not come back (C112_back_refuted)."
  },
  {
   "property": "C113",
   "status": "proved",
   "theorems": [
    "C113_back",
    "C113_one",
    "C113_fixed",
    "C113_scientific",
    "C113_flags",
    "C113_flags_zero_refuted",
    "C113_goods",
    "C113_settle",
    "C113_read",
    "C113_table"
   ],
   "note": "Flags with a name for 0 and unnamed bits only are refuted (C113_flags_zero_refuted). Existence of the partner is shown for floating-point values and flags (C113_fixed, C113_scientific, C113_flags)."
  },
  {
   "property": "C114",
   "status": "proved",
   "theorems": [
    "C114_read",
    "C114_fixed",
    "C114_scientific",
    "C114_through",
    "C114_error",
    "C114_exact",
    "C114_integers",
    "C114_strict_refuted",
    "C114_integers_refuted"
   ],
   "note": "Strict order is refuted (C114_strict_refuted), integers of one bit more are not exact (C114_integers_refuted)."
  },
  {
   "property": "C115",
   "status": "proved",
   "theorems": [
    "C115_string",
    "C115_chars",
    "C115_raw",
    "C115_leaves",
    "C115_read",
    "C115_written",
    "C115_exchange",
    "C115_pair_refuted",
    "C115_byte_refuted",
    "C115_overlong_refuted"
   ],
   "note": "Surrogate pairs, bytes written as escapes and overlong forms are refuted (C115_pair_refuted, C115_byte_refuted, C115_overlong_refuted). Quoted values: only contents for which nothing about the text is needed."
  },
  {
   "property": "C116",
   "status": "proved",
   "theorems": [
    "C116_object",
    "C116_array",
    "C116_element",
    "C116_int_or_string",
    "C116_target_refuted"
   ],
   "note": "Unconditional after the member_if has been come to (C116_element); for whole readings one alternative has to be unset before, which is needed (C116_target_refuted)."
  }
 ]
}