status['C04'] = 'partial'
notes['C04'] = 'As stated false (C04_no_overread_refuted: "[ " reads *end); proved: safe when *end is readable, its value does not influence the returned iterator, accepted texts are parsed without reading it.'
status['C07'] = 'partial'
notes['C07'] = 'parser entry points only so far'
status['C09'] = 'partial'
notes['C09'] = 'parser entry points only so far'
notes['C11'] = 'Idempotence holds for JSON documents; on arbitrary garbage it is refuted.'
status['C60'] = 'partial'
notes['C60'] = 'False for the code as stated (trux). Proved: end-of-text, string, member, bracket and no-value errors are reported exactly at the first byte that rules out every completion; a missing colon is reported one byte late, a malformed number at the end, a malformed literal within four bytes of the end; these are all kinds.'
status['C16'] = 'partial'
notes['C16'] = 'Everything except the minimum of signed types of at least 32 bits, where the read loop overflows (refuted by witness).'
status['C17'] = 'partial'
notes['C17'] = 'Full for unsigned and for 8/16 bit types; for wider signed types all values but the minimum (refuted: signed overflow).'
status['C18'] = 'partial'
notes['C18'] = 'False for the code: out-of-range numerals wrap modulo 2^bits silently (narrow/unsigned) or overflow (signed >= 32 bits); both behaviours proved for all such numerals.'
status['C19'] = 'partial'
notes['C19'] = 'Holds for all bytes except control characters without short escape and 0xF8..0xFD; refuted for those.'
status['C21'] = 'partial'
notes['C21'] = 'strings: holds for UTF-8 text, refuted for other bytes'
status['C22'] = 'partial'
notes['C22'] = 'Holds without surrogate pairs and control characters in \\u form; refuted for both.'
status['C24'] = 'partial'
notes['C24'] = 'Same restriction on bytes as C19; refuted otherwise.'
status['C26'] = 'partial'
notes['C26'] = 'All listed kinds except objects so far.'
notes['C31'] = 'For any strict weak order; std::unordered_* containers are not modelled.'
notes['C32'] = 'Strings in the domain of C19 as keys.'
status['C26'] = 'proved'
notes['C26'] = 'Integers, bool, string, char[N], sequences, dictionaries, fixed arrays (element-wise), objects and objects as arrays.'
notes['C35'] = 'Strict part for end iterators that may be read; nonstrict part for objects in which no listed name is repeated.'
status['C36'] = 'partial'
notes['C36'] = 'For well-formed objects in which no listed name is repeated (C36_missing_keep); for every text read without error, if the name does not stand in it in quotes (C36_success, member_if alternatives excepted); fields that are no members for every text (C36_not_members). Refuted for malformed input (truncated name); alternatives of a member_if may be reset, see C39.'
status['C37'] = 'partial'
notes['C37'] = 'Holds while some listed member does not occur; refuted otherwise (after the last listed member everything is skipped).'
status['C38'] = 'partial'
notes['C38'] = 'False for the code; only the refutation is proved.'
status['C39'] = 'partial'
notes['C39'] = 'False for the code; only the refutation is proved.'
notes['C40'] = 'Reading back needs equal names of both alternatives (refuted otherwise) and a first alternative that rejects the texts of the other.'
notes['C42'] = 'Names without quotes and without repetitions; null is not accepted by enumerators.'
notes['C43'] = 'Names without repetitions; string form: non-empty names without separator, whitespace, slash or quote.'
status['C52'] = 'partial'
notes['C52'] = 'per description; composition theorem pending'
status['C59'] = 'partial'
notes['C59'] = 'per description; composition theorem pending'
notes['C48'] = 'SerQ=true (either ReqQ), incl. n-fold nesting; bytes restricted as in C19, automatic for descriptions that write JSON. SerQ=ReqQ=false: texts not starting with a quote (refuted otherwise).'
status['C49'] = 'partial'
notes['C49'] = 'False for the code (trailing garbage accepted, refuted); proved: every inner error is reported with its code.'
notes['C50'] = 'The captured bytes are modelled by value; iterator lifetimes of iterator_pair are not.'
status['C51'] = 'partial'
notes['C51'] = 'Round trip proved; malformed null is accepted (refuted).'
status['C44'] = 'partial'
notes['C44'] = 'Proved: seconds for every integer type; whole seconds in every unit; microseconds for non-negative values; milliseconds for non-negative values of a signed 64-bit type. Refuted elsewhere: negative sub-second parts are lost, int32 milliseconds overflow, unsigned milliseconds get a bogus component.'
status['C45'] = 'partial'
notes['C45'] = 'Sum proved for all component lists in any order (weights within T) and missing closing quote after a component is an error. Refuted: cut after digits is accepted, cut inside mks steps past the end, unknown units ignored, overflow.'
notes['C46'] = 'All T of 2, 4, 8 bytes, all positive metrics, all values with a 63-bit byte count; one-byte T does not compile.'
status['C47'] = 'partial'
notes['C47'] = 'False for the code (32 decoded bytes: strlen runs past the buffer, refuted for every such string); proved: safe whenever the decoded buffer contains a NUL and the number is below 2^23.'
notes['C53'] = 'Complete: index, targets and *e in both ways the function can return.'
status['C56'] = 'partial'
notes['C56'] = 'False for the code: with only the two-argument form the name is ignored, with only T create_schema(string) the call does not compile (both refuted). Agreement proved when T has both or neither.'
notes['C57'] = 'trace is proved for tail_of within the range, which C09_strerror_defined shows for every description; outside it is undefined (refuted).'
status['C61'] = 'partial'
notes['C61'] = 'False for tokens longer than the buffer and after leading zeros (refuted, for every stream conversion satisfying scan_law); proved for tokens that fit.'
status['C62'] = 'partial'
notes['C62'] = 'Proved for scientific notation and for fixed texts that fit; refuted for longer fixed texts (cut after the point, inside the integer part) and for NaN/infinities.'
status['C63'] = 'partial'
notes['C63'] = 'For values whose text fits the buffer; refuted for fixed texts that are cut. Text conversion is a parameter; for the conversions of the C++ streams see C110-C112.'
status['C07'] = 'proved'
notes['C07'] = 'Parser entry points and every description (predicate desc in Desc.v).'
status['C09'] = 'proved'
notes['C09'] = 'Parser entry points and every description; strerror functions defined on the range.'
notes['C21'] = 'Every composition on the domains of predicate jdesc; refuted for non-UTF-8 strings, raw_quoted of a string, and cut floats.'
notes['C52'] = 'Every description without pointer, raw_quoted, time_interval and size_value outside quotes (predicate plain_desc); refuted for those four.'
status['C59'] = 'proved'
notes['C59'] = 'Every description; undefined behaviour excluded for safe_desc (no wide signed integers, time_interval, size_value) with readable *end.'
status['C64'] = 'partial'
notes['C64'] = 'Every composition on the domains of predicate rdesc; member_if only in single objects (C40). Outside the domains refuted elsewhere (C19, C44, C48, C51, C63).'
notes['C64'] = 'Every composition on the domains of predicate rdesc (member_if with equal names and distinguishable alternatives included). Outside the domains refuted elsewhere (C19, C40, C44, C48, C51, C63). Unordered containers: up to order, C65.'
notes['C65'] = 'The hash table is a parameter constrained only by the container requirements; element types that round-trip.'
notes['C31'] = 'For any strict weak order; unordered containers are C65.'

notes['C38'] = 'False for the code. Proved: names are compared as raw bytes (a listed member takes the value iff the bytes between the quotes are its name, escaped names are never taken), and a name written without escapes denotes its bytes.'
notes['C39'] = 'False for the code. Proved: members listed before the member_if and present in list order leave it alone; any other member of another name keeps the alternative tried first and resets the other one to what it reads from null.'
status['C66'] = 'partial'
notes['C66'] = 'Every description except quoted, raw_quoted, time_interval and size_value (predicate pure_desc), for all of which it is refuted; time_interval still treats a null pointer like a clean record.'
status['C67'] = 'partial'
notes['C67'] = 'Every description except size_value and fixed-size arrays of null-rejecting elements (predicate end_desc), unless the text contains a bad \\u or \\x escape; each exception refuted with a witness.'
notes['C68'] = 'For targets that hold a value of the type before the call (predicate tdesc); C68_ex_old shows that this is needed. Calls with undefined behaviour are excluded (C16, C59).'
status['C69'] = 'partial'
notes['C69'] = 'For descriptions whose whole type is in the round-trip domain: integers narrower than int or unsigned, bool, flags, pointers to bool or numbers, containers, objects and object arrays of these. Strings, wide integers and the other types with smaller round-trip domains are missing.'
status['C70'] = 'partial'
notes['C70'] = 'Unconditional for integers, booleans, floats, raw values, containers, objects and object arrays of these. With strings the consumed text must have no \\x escape and no cut UTF-8 character, with string keys no null key, with enumerators no skipped control bytes (C70_accepts, predicate tame). flags, time_interval, pointers, nonstrict enumerators and raw_quoted with required quotes are excluded; witnesses show that every condition is needed.'
notes['C71'] = 'Covers the sequence and ordered containers, dictionaries and both fixed-size arrays. For std::array the expected text of a missing comma is empty.'
status['C72'] = 'partial'
notes['C72'] = 'Proved without member_if members; for a member_if whose alternatives both refuse, the report is that of the alternative tried last (C72_if, C72_if_array), every other outcome with member_if is determined by C89. Once all listed members have come in list order the code reports the last unlisted member and expects a comma: refuted with witnesses, and that behaviour is proved too (C72_rest_*).'
notes['C73'] = 'Strings: literals without surrogate pairs (lmean_bmp) before the failing place; a bad hex digit is covered by C67.'
notes['C74'] = 'Numbers longer than the reader\'s buffer are written whole but read back cut (C74_long_refuted).'
status['C75'] = 'partial'
notes['C75'] = 'All descriptions except raw values, flags, time_interval, size_value and nonstrict enumerators (gdesc); for texts that start with a token and whose numbers are followed by a bracket, comma or colon. std::array and C arrays need at least one element and texts without trailing commas. Each condition is shown to be needed by a witness, except the exclusion of flags, time_interval, size_value and nonstrict enumerators.'
notes['C76'] = 'Both directions; a \\uXXXX escape of a control character without short form is kept undecoded, surrogates are encoded one by one and continuation bytes are not checked: all part of the characterisation.'
notes['C77'] = 'Both directions; booleans are C25. Integers out of range are stored modulo 2^bits, wide signed ones must fit (otherwise undefined behaviour, C16).'
notes['C78'] = 'Both directions, relative to the texts the element description reads (dlaw, which every description satisfies: C59). A comma before the closing bracket is part of the characterisation.'
notes['C82'] = 'Both directions for all byte strings, including what depends on the byte at *end. The description follows the code where it reports oddly (missing colon one byte late, numbers without position).'
notes['C83'] = 'Both directions. Undefined behaviour (wide signed overflow, C16) is the third outcome of C83_total; flags are covered by C87.'
notes['C84'] = 'Both directions, relative to the failures of the wrapped description.'
status['C85'] = 'partial'
notes['C85'] = 'Canonical on the domain of C44 (whole seconds of any type, non-negative microseconds, non-negative milliseconds of int64_t). Refuted below zero: the exact text written there is given, and for milliseconds no such value survives (C85_negative_refuted). Fractions of other integer types overflow (C44).'
notes['C86'] = 'Exact text, both directions. uint64_t values from 2^63 on are outside (C46_large_refuted).'
notes['C87'] = 'Both directions, success and failure, and uniqueness of the description. C87_words_refuted: with a space as separator a listed name behind two spaces is skipped.'
notes['C88'] = 'Both directions, success, failure and continuing behind an error; runs with undefined behaviour are those without an outcome (C51, C52).'
notes['C89'] = 'Both directions, success, failure and continuing behind an error, including member_if. Names must be free of quotes and backslashes (other names never match, C38).'
notes['C90'] = 'C90_float_element_refuted, C90_quoted_element_refuted, C90_member_refuted, C90_struct_refuted: the exceptions named in the statement. The empty text is excluded from C90_always (numbers leave their target alone there).'
notes['C91'] = 'Both directions. Strings longer than INT_MAX bytes after respelling are outside C91_respelt.'
for _c in ('C16', 'C17', 'C19', 'C24'):
    notes[_c] += ' The exact set of surviving values is C91.'
notes['C93'] = 'Both directions, every integer type of 2, 4 and 8 bytes.'
for _c in ('C44', 'C85'):
    notes[_c] += ' The exact set of surviving values is C93.'
notes['C94'] = 'Both directions, every integer type of 2, 4 and 8 bytes and every metric below 2^63.'
notes['C46'] += ' The exact set of values is C94.'
notes['C86'] += ' The exact set of values is C94.'
notes['C31'] += ' The order among equivalent elements is fixed by C31_multi_order and C31_multi_order_unique.'
notes['C95'] = 'Both directions for every typed reader; a null json_error pointer and flags without names are not covered.'
for _c in ('C04', 'C45', 'C47'):
    notes[_c] += ' The exact condition for undefined behaviour of the typed readers is C95.'
notes['C69'] = 'For descriptions whose whole type is in the round-trip domain: all integer types (a signed type of at least the size of int never reads its minimum, so C69_integers has no exception), bool, flags, pointers to bool or numbers, containers, objects and object arrays of these. For strings the claim is false (C69_string_refuted; C91 says exactly which strings are read back). For readings without error (C69_success) also: strings and char arrays read from texts without control characters that have no short escape, without 0xF8 to 0xFD and without \\x escapes of those; strict enumerators, raw_value, raw_quoted, quoted, pointers, seconds of any type, bytes in a signed type, and containers, objects and object arrays of these; with member_if (C69_if) the struct keeps whatever invariant its members and alternatives keep, for example that at most one alternative is set, and is then stable (C69_int_or_string; C69_both_set_refuted for targets without the invariant). Refuted for \\x, negative milliseconds and sizes beyond int64_t.'
notes['C75'] = 'All descriptions except raw values, flags, time_interval, size_value and nonstrict enumerators (gdesc); for texts that start with a token and whose numbers are followed by a bracket, comma or colon. std::array and C arrays need at least one element and texts without trailing commas. Each condition is shown to be needed by a witness (the C75_*_refuted theorems), except the exclusion of size_value.'
notes['C88'] = 'Both directions, success, failure and continuing behind an error, for sequences, dictionaries, objects and the unordered containers; runs with undefined behaviour are those without an outcome (C51, C52).'
notes['C95'] = 'Both directions for every typed reader, including the unordered containers; a null json_error pointer and flags without names are not covered.'
notes['C96'] = 'For idesc: everything in rdesc, all integers, all byte strings, char arrays up to the first zero, numbers with an injective format, and what is built from these. The types left out are covered by C96_*_refuted witnesses, except unordered containers, whose order of elements is a parameter of the model.'

notes['C75'] = 'All descriptions except raw values, flags, time_interval, size_value and nonstrict enumerators (gdesc); for texts that start with a token and whose numbers are followed by a bracket, comma or colon. std::array and C arrays need at least one element and texts without trailing commas. Each condition and exclusion is shown to be needed by a witness (the C75_*_refuted theorems); size_value obeys the weaker C75_size, which leaves open where a failed reading stops.'
notes['C98'] = 'Structs without member_if. The refuted theorems show what happens when a hypothesis is missing.'
notes['C99'] = 'Deferring for everything in tight (C92), keeping for everything in sdesc (C70) on texts without its quirks; C99_strings_refuted shows that this condition is needed and C99_twice_refuted that the struct theorem has no converse.'

notes['C105'] = 'Descriptions in says: integers, booleans, UTF-8 strings, enumerators, raw JSON, containers, dictionaries, structs (with member_if), arrays of members, quoted, pointers, char arrays, flags, floating-point numbers whose text fits the buffer; not sizes and times.'
notes['C106'] = 'For the spellings in simple and the descriptions in sees. The spellings left out are read as something else (C106_other_spellings_refuted).'
notes['C107'] = 'The loop is the caller\'s, written down in SpecStream.v. Torn logs: descriptions in both tight true and cuttable. C107_time_refuted shows why time_interval is not among them.'
notes['C108'] = 'The fuel of parse_value_f counts nested calls of parse_value (parser.hpp:533-544); the fuel of items_loop counts turns of a loop and is derived from the length. C108_bounded_refuted: no fixed number of levels is enough.'
notes['C109'] = 'Descriptions in weighs: all but structs with member_if of raw values and fixed-size arrays of raw values (C109_raw_array_refuted) or of optionally quoted raw values; hash tables by what insertion adds to their contents. The rest of a pointee or a fixed-size part counts nothing.'

notes['C110'] = 'Numbers longer than the buffer are refuted (C110_long_refuted); cut behind the exponent mark they read as 0 (C110_cut_refuted); digits behind a leading zero change the value (C110_behind_refuted).'
notes['C111'] = 'Values above 10^18-1 may be cut: C111_large_refuted. Values with more decimal digits do not come back: C111_back_refuted.'
notes['C112'] = 'Text stability is refuted for float (C112_float_refuted); values with more than seven digits do not come back (C112_back_refuted).'
notes['C113'] = 'Flags with a name for 0 and unnamed bits only are refuted (C113_flags_zero_refuted). Existence of the partner is shown for floating-point values and flags (C113_fixed, C113_scientific, C113_flags).'
notes['C114'] = 'Strict order is refuted (C114_strict_refuted), integers of one bit more are not exact (C114_integers_refuted).'
notes['C115'] = 'Surrogate pairs, bytes written as escapes and overlong forms are refuted (C115_pair_refuted, C115_byte_refuted, C115_overlong_refuted). Quoted values: only contents for which nothing about the text is needed.'

notes['C116'] = 'Unconditional after the member_if has been come to (C116_element); for whole readings one alternative has to be unset before, which is needed (C116_target_refuted).'
