{"id": "C01", "title": "Every RFC 8259 JSON value is accepted", "statement": "If a byte range starts with a JSON value in the sense of RFC 8259 (any whitespace between tokens, any nesting, UTF-8 strings) followed by something that cannot extend a number, parser::parse called with a clean error object returns the position just after that value and reports no error.", "quantifier": "all RFC 8259 texts of any length and nesting depth, all continuations", "why_tests_cant": "The grammar is infinite and recursive; tests sample a handful of documents.", "anchors": ["wjson/parser.hpp: parse, parse_value, parse_object, parse_array, parse_member, parse_string, parse_number, parse_space"]}
{"id": "C02", "title": "parser::parse accepts exactly its documented superset of JSON", "statement": "parser::parse succeeds on an input if and only if the consumed prefix belongs to an explicitly written grammar: RFC 8259 JSON extended with /* */ comments, stray '/', trailing commas, '[]' and '{]' as empty objects, raw control bytes in strings and structurally (not semantically) checked UTF-8. Everything outside that grammar is rejected with an error.", "quantifier": "all byte sequences", "why_tests_cant": "Soundness (nothing else is accepted) is a statement about all rejected inputs.", "anchors": ["wjson/parser.hpp: parse_value, parse_object, parse_array, parse_member"]}
{"id": "C03", "title": "Parsing always terminates", "statement": "parser::parse, despace and all scanning loops terminate on every byte sequence, whatever the error pointer.", "quantifier": "all byte sequences, all error pointers", "why_tests_cant": "Non-termination cannot be observed by a finite run.", "anchors": ["wjson/parser.hpp: parse_value, parse_string, despace"]}
{"id": "C04", "title": "Parsing never reads or steps past the end of the range", "statement": "No call of parser::parse/despace on [beg,end) reads a byte at or beyond end or advances an iterator beyond it.", "quantifier": "all byte sequences, all error pointers", "why_tests_cant": "An out-of-range read of one byte is usually invisible at run time (std::string keeps a NUL there).", "anchors": ["wjson/parser.hpp: parse_array:609-611, parse_object:585-587"]}
{"id": "C05", "title": "The returned iterator lies inside the range and only moves forward", "statement": "parser::parse_* return an iterator in [beg,end]; when no error is reported at least one byte of a value has been consumed.", "quantifier": "all byte sequences, all error pointers", "why_tests_cant": "Holds for every input, in particular malformed ones.", "anchors": ["wjson/parser.hpp: parse_value, parse_member, parse_string, parse_number"]}
{"id": "C06", "title": "An error report and stopping at end coincide", "statement": "If a parser function called with a clean error object reports an error it returns end; if it reports none, the error object is untouched.", "quantifier": "all byte sequences", "why_tests_cant": "Quantifies over all malformed inputs.", "anchors": ["wjson/parser.hpp", "wjson/error.hpp: create_error"]}
{"id": "C07", "title": "The first error is sticky", "statement": "Once a json_error holds an error no parsing or deserializing call changes or clears it, for every JSON description built from the library's types.", "quantifier": "all inputs, all error objects, all descriptions (by composition)", "why_tests_cant": "Needs every control path of every serializer.", "anchors": ["wjson/error.hpp: create_error, json_error", "wjson/parser.hpp", "wjson/serializer/array.hpp", "wjson/serializer/bool.hpp", "wjson/serializer/enumerator.hpp", "wjson/serializer/field.hpp", "wjson/serializer/flags.hpp", "wjson/serializer/float.hpp", "wjson/serializer/iterator_pair.hpp", "wjson/serializer/member_value.hpp", "wjson/serializer/number.hpp", "wjson/serializer/object.hpp", "wjson/serializer/object_array.hpp", "wjson/serializer/pointer.hpp", "wjson/serializer/quoted.hpp", "wjson/serializer/raw_value.hpp", "wjson/serializer/size_value.hpp", "wjson/serializer/string.hpp", "wjson/serializer/time_interval.hpp"]}
{"id": "C08", "title": "A null error pointer does not change where the parser stops", "statement": "parser::parse_* return the same iterator whether called with nullptr, a clean json_error, or one already holding an error.", "quantifier": "all byte sequences, all pairs of error pointers", "why_tests_cant": "Compares two runs on every input.", "anchors": ["wjson/parser.hpp", "wjson/error.hpp: create_error"]}
{"id": "C09", "title": "The reported error position lies inside the input", "statement": "Whenever deserialization of [beg,end) turns a clean json_error into an error, 0 <= tail_of() <= distance(beg,end); hence strerror::where is a valid offset and strerror::trace does not form iterators outside the range.", "quantifier": "all byte sequences, all descriptions (by composition)", "why_tests_cant": "tail_of is computed differently on dozens of error paths.", "anchors": ["wjson/parser.hpp", "wjson/strerror.hpp: where, trace, message_trace", "wjson/serializer/array.hpp", "wjson/serializer/bool.hpp", "wjson/serializer/enumerator.hpp", "wjson/serializer/field.hpp", "wjson/serializer/flags.hpp", "wjson/serializer/float.hpp", "wjson/serializer/iterator_pair.hpp", "wjson/serializer/member_value.hpp", "wjson/serializer/number.hpp", "wjson/serializer/object.hpp", "wjson/serializer/object_array.hpp", "wjson/serializer/pointer.hpp", "wjson/serializer/quoted.hpp", "wjson/serializer/raw_value.hpp", "wjson/serializer/size_value.hpp", "wjson/serializer/string.hpp", "wjson/serializer/time_interval.hpp"]}
{"id": "C10", "title": "Whitespace and comments are skipped, nothing else is", "statement": "parse_space returns the longest-skip position: the remaining text does not start with whitespace or '/'; on input without '/' exactly the run of blanks/tabs/CR/LF is skipped; a /* */ comment whose body has no '*/' is skipped whole; an unterminated comment is an error.", "quantifier": "all byte sequences", "why_tests_cant": "Comment bodies are arbitrary.", "anchors": ["wjson/parser.hpp: parse_space:167-202"]}
{"id": "C11", "title": "despace removes exactly the whitespace and comments outside strings", "statement": "For every sequence of JSON tokens with whitespace and comments between them, despace writes the concatenation of the tokens, returns end and reports no error; the result for a JSON document is accepted by the parser; applying it again changes nothing.", "quantifier": "all token sequences and separators", "why_tests_cant": "Infinite family of layouts.", "anchors": ["wjson/parser.hpp: despace:129-156"]}
{"id": "C12", "title": "Numbers are scanned by maximal munch of the RFC 8259 grammar", "statement": "parse_number accepts an input iff it starts with an RFC number, and stops after the longest one; '01' stops after '0'; '1.', '1e', '-' are errors.", "quantifier": "all byte sequences", "why_tests_cant": "Infinite language.", "anchors": ["wjson/parser.hpp: parse_integer, parse_number, parse_digit"]}
{"id": "C13", "title": "Strings are scanned exactly to the first unescaped closing quote", "statement": "parse_string accepts iff the input starts with a quoted sequence of complete escapes and complete UTF-8 shaped sequences, and returns the position after the first unescaped quote.", "quantifier": "all byte sequences", "why_tests_cant": "Infinite language.", "anchors": ["wjson/parser.hpp: parse_string, parse_hex, parse_utf8"]}
{"id": "C14", "title": "Integers are written as their canonical decimal numeral", "statement": "For every integer type and value the serializer emits the unique decimal numeral of the value (no leading zero, '-' only for negatives).", "quantifier": "all integer types (width, signedness), all values", "why_tests_cant": "2^64 values per type.", "anchors": ["wjson/serializer/number.hpp: integer_serializer::serialize"]}
{"id": "C15", "title": "Integer serialization never overruns its stack buffer", "statement": "The fixed char buf[integer_buffer_size<T>] is large enough for every value of T (8..64 bits, signed or not, including the minimum).", "quantifier": "all integer types, all values", "why_tests_cant": "Overrun by one byte on a single extreme value would go unnoticed.", "anchors": ["wjson/serializer/number.hpp: integer_buffer_size, integer_serializer::serialize"]}
{"id": "C16", "title": "Reading an in-range integer numeral yields its value", "statement": "Deserializing a JSON integer whose magnitude fits the target yields exactly that integer, consumes exactly the numeral and reports no error.", "quantifier": "all integer types, all in-range numerals, all continuations", "why_tests_cant": "Infinite input space.", "anchors": ["wjson/parser.hpp: unserialize_integer:633-659"]}
{"id": "C17", "title": "Integers round-trip", "statement": "serialize then deserialize gives the same value for every value of every integer type.", "quantifier": "all integer types, all values (including the minimum)", "why_tests_cant": "Extremes per type; signed overflow is undefined behaviour.", "anchors": ["wjson/serializer/number.hpp", "wjson/parser.hpp: unserialize_integer"]}
{"id": "C18", "title": "An integer that does not fit the target is reported as an error", "statement": "Deserializing a numeral outside the range of the target type (too large, or negative for an unsigned target) reports an error.", "quantifier": "all integer types, all out-of-range numerals", "why_tests_cant": "Infinite input space.", "anchors": ["wjson/parser.hpp: unserialize_integer:648-656"]}
{"id": "C19", "title": "Strings round-trip", "statement": "Deserializing the serialization of a std::string gives back the same bytes for every byte string.", "quantifier": "all byte strings of length < 2^31", "why_tests_cant": "All byte combinations including invalid UTF-8 and control bytes.", "anchors": ["wjson/serializer/string.hpp: serializerS::serialize, unserialize"]}
{"id": "C20", "title": "Serialized strings are valid JSON denoting the same text", "statement": "For every valid UTF-8 string the serializer emits an RFC 8259 string literal whose RFC meaning is that string; for arbitrary bytes the output is still a quoted ASCII/UTF-8 shaped literal without raw control bytes.", "quantifier": "all byte strings", "why_tests_cant": "Infinite input space.", "anchors": ["wjson/serializer/string.hpp: serializerS::serialize, serialize_hex_"]}
{"id": "C21", "title": "Everything serialized is accepted by parser::parse", "statement": "The output of every serializer (any description, any value) is accepted by parser::parse and consumed whole.", "quantifier": "all descriptions, all values", "why_tests_cant": "Compositional over an infinite family of types.", "anchors": ["wjson/serializer/string.hpp: serialize_hex_:141-144", "wjson/parser.hpp: parse_string:414-417"]}
{"id": "C22", "title": "\\uXXXX escapes decode to the UTF-8 encoding of the code point", "statement": "Reading a string literal containing \\u escapes yields the UTF-8 encoding of the escaped characters (including surrogate pairs).", "quantifier": "all code points, all escape sequences", "why_tests_cant": "2^16 escapes and 2^20 pairs.", "anchors": ["wjson/serializer/string.hpp: unserialize_uhex_"]}
{"id": "C23", "title": "Reading into char[N] never writes outside the array", "statement": "Deserializing any input into char[N] writes at most N bytes, and bytes not written are zero.", "quantifier": "all N, all byte sequences", "why_tests_cant": "Arbitrary escapes near the boundary.", "anchors": ["wjson/serializer/string.hpp: serializerT<value<char[N]>>, unserialize, utf8_copy_, unserialize_uhex_"]}
{"id": "C24", "title": "char[N] round-trips", "statement": "A char[N] holding a NUL-padded text round-trips through serialize/deserialize.", "quantifier": "all N, all contents", "why_tests_cant": "Infinite.", "anchors": ["wjson/serializer/string.hpp"]}
{"id": "C25", "title": "bool round-trips and rejects everything else", "statement": "true/false are written and read as JSON literals; any input that does not start with true, false or null is an error.", "quantifier": "all byte sequences", "why_tests_cant": "Infinite input space.", "anchors": ["wjson/serializer/bool.hpp"]}
{"id": "C26", "title": "null resets the target to its default", "statement": "Deserializing null succeeds, consumes 4 bytes and yields the default value of the target for numbers, bool, strings, sequences, dictionaries, objects, and element-wise for fixed arrays.", "quantifier": "all descriptions, all previous target values", "why_tests_cant": "All prior states.", "anchors": ["wjson/serializer/array.hpp", "wjson/serializer/bool.hpp", "wjson/serializer/enumerator.hpp", "wjson/serializer/field.hpp", "wjson/serializer/flags.hpp", "wjson/serializer/float.hpp", "wjson/serializer/iterator_pair.hpp", "wjson/serializer/member_value.hpp", "wjson/serializer/number.hpp", "wjson/serializer/object.hpp", "wjson/serializer/object_array.hpp", "wjson/serializer/pointer.hpp", "wjson/serializer/quoted.hpp", "wjson/serializer/raw_value.hpp", "wjson/serializer/size_value.hpp", "wjson/serializer/string.hpp", "wjson/serializer/time_interval.hpp"]}
{"id": "C27", "title": "Sequences round-trip", "statement": "vector/deque/list of any round-tripping element description round-trip, with arbitrary length and nesting.", "quantifier": "all element descriptions, all lengths", "why_tests_cant": "Unbounded sizes and nesting.", "anchors": ["wjson/serializer/array.hpp: serializerA"]}
{"id": "C28", "title": "Sequence deserialization yields the elements in order, ignoring whitespace", "statement": "For every list of element texts separated by commas and arbitrary whitespace the container receives exactly the element values in order, whatever it contained before.", "quantifier": "all element lists, all whitespace, all previous contents", "why_tests_cant": "Unbounded.", "anchors": ["wjson/serializer/array.hpp: serializerA::operator()"]}
{"id": "C29", "title": "Fixed-size arrays are never written out of bounds", "statement": "Deserializing into J[N]/std::array<J,N> stores at most N elements; more than N elements is an error; fewer leave the remaining elements unchanged.", "quantifier": "all N, all inputs", "why_tests_cant": "Unbounded input lengths.", "anchors": ["wjson/serializer/array.hpp: serializerA< array_r< J[N] > >, serializerA< array_r< std::array > >"]}
{"id": "C30", "title": "Fixed-size arrays round-trip", "statement": "J[N] and std::array<J,N> round-trip for every round-tripping element description.", "quantifier": "all N, all element values", "why_tests_cant": "Unbounded.", "anchors": ["wjson/serializer/array.hpp"]}
{"id": "C31", "title": "set/multiset/map/multimap round-trip and keep their invariants", "statement": "Deserialized associative containers are sorted and (for set/map) duplicate free whatever the input order; serializing and deserializing gives the same container; for duplicate keys in a map the first occurrence wins; equivalent elements of a multiset or multimap stand in an order determined by the text.", "quantifier": "all inputs, all contents", "why_tests_cant": "Unbounded.", "anchors": ["wjson/specialization/array.hpp", "wjson/specialization/dict.hpp", "wjson/serializer/array.hpp"]}
{"id": "C32", "title": "Dictionaries round-trip", "statement": "dict of string keys to any round-tripping value description round-trips (as association list and as map).", "quantifier": "all contents", "why_tests_cant": "Unbounded.", "anchors": ["wjson/serializer/field.hpp", "wjson/specialization/dict.hpp"]}
{"id": "C33", "title": "Objects round-trip", "statement": "An object description with distinct member names over round-tripping member types round-trips every value of the struct, starting from any previous target contents.", "quantifier": "all descriptions, all struct values, all previous targets", "why_tests_cant": "Unbounded composition.", "anchors": ["wjson/serializer/object.hpp"]}
{"id": "C34", "title": "Object deserialization does not depend on member order", "statement": "For JSON objects with distinct keys, every permutation of the members (with any whitespace) deserializes to the same struct.", "quantifier": "all permutations of all objects", "why_tests_cant": "n! orders.", "anchors": ["wjson/serializer/object.hpp: unserialize_members"]}
{"id": "C35", "title": "Unknown members are skipped in nonstrict mode and rejected in strict mode", "statement": "nonstrict: members not in the description with arbitrary JSON values do not influence the result; strict: the presence of any unknown member is reported as an error.", "quantifier": "all objects, all unknown members at any position", "why_tests_cant": "Unbounded positions and contents.", "anchors": ["wjson/serializer/object.hpp: unserialize_members"]}
{"id": "C36", "title": "Members missing from the JSON keep their previous value", "statement": "Deserializing an object changes only the struct fields whose names occur in the JSON.", "quantifier": "all objects, all previous targets", "why_tests_cant": "All subsets of members.", "anchors": ["wjson/serializer/object.hpp"]}
{"id": "C37", "title": "Duplicate object members: last one wins", "statement": "If a listed member occurs several times in a JSON object the last occurrence determines the field.", "quantifier": "all objects", "why_tests_cant": "All duplication patterns.", "anchors": ["wjson/serializer/object.hpp: unserialize_members:181-184,196-225"]}
{"id": "C38", "title": "Object member names are matched as JSON strings", "statement": "A member name written with escapes is treated the same as the unescaped name.", "quantifier": "all names, all spellings", "why_tests_cant": "Infinite spellings.", "anchors": ["wjson/serializer/object.hpp: unserialize_member_name"]}
{"id": "C39", "title": "An unrelated member never modifies a member_if field", "statement": "Deserializing a member whose name differs from a member_if's name leaves both alternatives of the member_if unchanged.", "quantifier": "all objects", "why_tests_cant": "Depends on order and on unknown members.", "anchors": ["wjson/serializer/object.hpp: unserialize_member(member_if)"]}
{"id": "C40", "title": "member_if writes and reads the selected alternative", "statement": "member_if serializes the left alternative unless it equals its default, else the right; reading back restores the chosen alternative and resets the other.", "quantifier": "all values", "why_tests_cant": "All value pairs.", "anchors": ["wjson/serializer/object.hpp"]}
{"id": "C41", "title": "Objects as arrays round-trip positionally", "statement": "object_array descriptions round-trip; k elements set exactly the first k members, leaving the others; more elements than members is an error; the array sets what the object with the same values in list order sets.", "quantifier": "all descriptions, all values, all element counts", "why_tests_cant": "Unbounded.", "anchors": ["wjson/serializer/object_array.hpp"]}
{"id": "C42", "title": "Enumerators round-trip and reject unknown names in strict mode", "statement": "A listed enum value round-trips through its name; a strict enumerator reports InvalidEnum for any other name, a nonstrict one yields the default.", "quantifier": "all enum lists, all names", "why_tests_cant": "Infinite names.", "anchors": ["wjson/serializer/enumerator.hpp"]}
{"id": "C43", "title": "Flags round-trip", "statement": "Every value that is a union of listed flags round-trips, for array form and every separator form.", "quantifier": "all flag lists, all unions, all separators", "why_tests_cant": "Exponential number of unions.", "anchors": ["wjson/serializer/flags.hpp"]}
{"id": "C44", "title": "Time intervals round-trip", "statement": "time_interval_s/ms/mks round-trip every representable interval.", "quantifier": "all 64-bit values", "why_tests_cant": "2^64 values.", "anchors": ["wjson/serializer/time_interval.hpp"]}
{"id": "C45", "title": "Time interval reading adds up its components", "statement": "Reading \"<a>d<b>h<c>m<d>s<e>ms<f>mks\" in any order yields the sum of the components in the target's unit, and a truncated or unterminated string is an error.", "quantifier": "all component lists", "why_tests_cant": "Unbounded.", "anchors": ["wjson/serializer/time_interval.hpp"]}
{"id": "C46", "title": "Size values round-trip", "statement": "size_value<T,metric> round-trips every value whose byte count fits in 63 bits.", "quantifier": "all values, all metrics, all integer types", "why_tests_cant": "2^64 values.", "anchors": ["wjson/serializer/size_value.hpp"]}
{"id": "C47", "title": "Size value reading is memory safe for every input", "statement": "No JSON string makes size_value read outside its 32-byte buffer.", "quantifier": "all byte sequences", "why_tests_cant": "Out-of-bounds reads are invisible.", "anchors": ["wjson/serializer/size_value.hpp: 80-85"]}
{"id": "C48", "title": "Quoted values round-trip", "statement": "quoted<J> round-trips for every round-tripping J whose output contains no unescapable bytes, including nested quoting.", "quantifier": "all descriptions J, all values", "why_tests_cant": "Unbounded nesting.", "anchors": ["wjson/serializer/quoted.hpp: serializerQ"]}
{"id": "C49", "title": "Quoted deserialization rejects trailing garbage inside the quotes", "statement": "quoted<J> reports an error if the quoted text is not exactly one J value.", "quantifier": "all inputs", "why_tests_cant": "Infinite.", "anchors": ["wjson/serializer/quoted.hpp: serializerQ::deserialize:106"]}
{"id": "C50", "title": "Raw values and iterator pairs return exactly the bytes of one value", "statement": "raw_value/iterator_pair deserialization captures exactly the bytes of the JSON value at the current position and re-emits them unchanged.", "quantifier": "all JSON values", "why_tests_cant": "Infinite.", "anchors": ["wjson/serializer/raw_value.hpp", "wjson/serializer/iterator_pair.hpp"]}
{"id": "C51", "title": "Smart pointers round-trip", "statement": "pointer<unique_ptr/shared_ptr, J> round-trips null and every J value whose text does not start with 'n'; malformed null literals are errors.", "quantifier": "all values, all inputs", "why_tests_cant": "Infinite.", "anchors": ["wjson/serializer/pointer.hpp"]}
{"id": "C52", "title": "Serializer output does not depend on the kind of output iterator", "statement": "Serializing through a back_inserter and through a plain char* produce the same bytes and the same final position, for every description and value.", "quantifier": "all descriptions, all values", "why_tests_cant": "Relational property over all serializers.", "anchors": ["wjson/serializer/array.hpp", "wjson/serializer/bool.hpp", "wjson/serializer/enumerator.hpp", "wjson/serializer/field.hpp", "wjson/serializer/flags.hpp", "wjson/serializer/float.hpp", "wjson/serializer/iterator_pair.hpp", "wjson/serializer/member_value.hpp", "wjson/serializer/number.hpp", "wjson/serializer/object.hpp", "wjson/serializer/object_array.hpp", "wjson/serializer/pointer.hpp", "wjson/serializer/quoted.hpp", "wjson/serializer/raw_value.hpp", "wjson/serializer/size_value.hpp", "wjson/serializer/string.hpp", "wjson/serializer/time_interval.hpp", "wjson/serializer/time_interval.hpp: write_if_", "wjson/serializer/size_value.hpp: write_if_1_", "wjson/serializer/quoted.hpp: serializerRQ", "wjson/serializer/pointer.hpp:26-29"]}
{"id": "C53", "title": "multi_deserializer returns the index of the first description that accepts", "statement": "The result is the number of leading descriptions that report an error, and the target of the first accepting one receives its value.", "quantifier": "all description lists, all inputs", "why_tests_cant": "Unbounded lists.", "anchors": ["wjson/utility/multi_deserializer.hpp"]}
{"id": "C54", "title": "Schema lists are merged as sets in order", "statement": "schema::get_schema_list(v) appends exactly the names not yet present, keeps the old prefix, introduces no duplicates among new names already present, and returns true iff something was appended.", "quantifier": "all lists", "why_tests_cant": "Unbounded.", "anchors": ["wjson/schema.hpp: get_schema_list"]}
{"id": "C55", "title": "create_schema(obj,names) uses the first requested name that exists", "statement": "The first requested name that is in the schema list is used; if none is, the last requested name.", "quantifier": "all lists of names", "why_tests_cant": "Unbounded.", "anchors": ["wjson/schema.hpp: create_schema"]}
{"id": "C56", "title": "Both create_schema overloads agree", "statement": "create_schema<T>(name) returns the same object create_schema<T>(obj,name) stores.", "quantifier": "all kinds of T", "why_tests_cant": "Depends on which of 4 detected forms exist.", "anchors": ["wjson/schema.hpp: create_schema:122-134"]}
{"id": "C57", "title": "strerror reports faithfully", "statement": "what() returns the text of the error code; where() is the offset distance-tail_of; trace() is the input with a marker inserted at that offset (deleting it restores the input).", "quantifier": "all errors, all inputs", "why_tests_cant": "Infinite.", "anchors": ["wjson/strerror.hpp"]}
{"id": "C58", "title": "The _json literal only replaces apostrophes", "statement": "operator\"\"_json preserves length and every byte except ' which becomes \".", "quantifier": "all byte strings", "why_tests_cant": "Infinite.", "anchors": ["wjson/_json.hpp"]}
{"id": "C59", "title": "Deserialization of any description terminates and stays in range", "statement": "For every description built from the library's types, deserialization of any input terminates and returns an iterator in [beg,end].", "quantifier": "all descriptions (by composition), all inputs", "why_tests_cant": "Infinite.", "anchors": ["wjson/serializer/array.hpp", "wjson/serializer/bool.hpp", "wjson/serializer/enumerator.hpp", "wjson/serializer/field.hpp", "wjson/serializer/flags.hpp", "wjson/serializer/float.hpp", "wjson/serializer/iterator_pair.hpp", "wjson/serializer/member_value.hpp", "wjson/serializer/number.hpp", "wjson/serializer/object.hpp", "wjson/serializer/object_array.hpp", "wjson/serializer/pointer.hpp", "wjson/serializer/quoted.hpp", "wjson/serializer/raw_value.hpp", "wjson/serializer/size_value.hpp", "wjson/serializer/string.hpp", "wjson/serializer/time_interval.hpp"]}
{"id": "C60", "title": "strerror::where is the offset of the first offending byte", "statement": "For every rejected document where() points at the byte that makes the text invalid.", "quantifier": "all rejected inputs", "why_tests_cant": "Infinite.", "anchors": ["wjson/parser.hpp: parse_null:254, parse_integer:357", "wjson/strerror.hpp: where"]}
{"id": "C61", "title": "Floating-point numbers are read at full length", "statement": "Reading a floating-point value uses the whole number token that is consumed.", "quantifier": "all number tokens", "why_tests_cant": "Unbounded token length.", "anchors": ["wjson/serializer/float.hpp: 73-79"]}
{"id": "C62", "title": "Serialized floating-point values are JSON numbers", "statement": "The text written for a floating-point value is exactly the text the stream formats and is a JSON number.", "quantifier": "all precisions, all formatted texts", "why_tests_cant": "Unbounded texts; the failing lengths depend on the precision.", "anchors": ["wjson/serializer/float.hpp: 22-54"]}
{"id": "C63", "title": "Floating-point values survive a round trip", "statement": "If the stream reads back the text it formats, then reading the serialized value gives it back, consuming exactly the output.", "quantifier": "all values, all precisions, any correct text conversion", "why_tests_cant": "Depends on the length of the text.", "anchors": ["wjson/serializer/float.hpp"]}
{"id": "C64", "title": "Every composition survives a round trip", "statement": "For every description composed of the library's types, reading what was written gives back the value, consuming exactly the output, whatever the target contained and whatever follows.", "quantifier": "all descriptions (by composition), all values in their domains", "why_tests_cant": "Infinite family of types.", "anchors": ["wjson/serializer/array.hpp", "wjson/serializer/bool.hpp", "wjson/serializer/enumerator.hpp", "wjson/serializer/field.hpp", "wjson/serializer/flags.hpp", "wjson/serializer/float.hpp", "wjson/serializer/iterator_pair.hpp", "wjson/serializer/member_value.hpp", "wjson/serializer/number.hpp", "wjson/serializer/object.hpp", "wjson/serializer/object_array.hpp", "wjson/serializer/pointer.hpp", "wjson/serializer/quoted.hpp", "wjson/serializer/raw_value.hpp", "wjson/serializer/size_value.hpp", "wjson/serializer/string.hpp", "wjson/serializer/time_interval.hpp"]}
{"id": "C65", "title": "Unordered containers keep exactly the elements read", "statement": "For every hash table satisfying the C++ container requirements: unordered_set/map hold each key once with its first occurrence, unordered_multiset/multimap hold all elements, null empties them, and writing then reading gives the same elements up to order.", "quantifier": "all hash tables, all element descriptions, all element lists", "why_tests_cant": "Iteration order is unspecified, so tests see only one of the possible orders.", "anchors": ["wjson/specialization/array.hpp: 129-152", "wjson/specialization/dict.hpp: 166-196"]}
{"id": "C66", "title": "Reading does not depend on the error record", "statement": "For every description the value read and the iterator returned are the same without a json_error, with a clean one and with one that already holds an error; two clean records receive the same report.", "quantifier": "all descriptions (by composition), all inputs, all error records", "why_tests_cant": "Pairs of runs over all inputs.", "anchors": ["wjson/error.hpp: 39-56", "wjson/serializer/array.hpp", "wjson/serializer/bool.hpp", "wjson/serializer/enumerator.hpp", "wjson/serializer/field.hpp", "wjson/serializer/flags.hpp", "wjson/serializer/float.hpp", "wjson/serializer/iterator_pair.hpp", "wjson/serializer/member_value.hpp", "wjson/serializer/number.hpp", "wjson/serializer/object.hpp", "wjson/serializer/object_array.hpp", "wjson/serializer/pointer.hpp", "wjson/serializer/quoted.hpp", "wjson/serializer/raw_value.hpp", "wjson/serializer/size_value.hpp", "wjson/serializer/string.hpp", "wjson/serializer/time_interval.hpp"]}
{"id": "C67", "title": "A reported error leaves the iterator at the end", "statement": "For every description, a call that reports an error returns end.", "quantifier": "all descriptions (by composition), all inputs", "why_tests_cant": "Infinite; the violating inputs (bad escapes) are rarely tried.", "anchors": ["wjson/error.hpp: 39-56", "wjson/serializer/array.hpp", "wjson/serializer/bool.hpp", "wjson/serializer/enumerator.hpp", "wjson/serializer/field.hpp", "wjson/serializer/flags.hpp", "wjson/serializer/float.hpp", "wjson/serializer/iterator_pair.hpp", "wjson/serializer/member_value.hpp", "wjson/serializer/number.hpp", "wjson/serializer/object.hpp", "wjson/serializer/object_array.hpp", "wjson/serializer/pointer.hpp", "wjson/serializer/quoted.hpp", "wjson/serializer/raw_value.hpp", "wjson/serializer/size_value.hpp", "wjson/serializer/string.hpp", "wjson/serializer/time_interval.hpp"]}
{"id": "C68", "title": "The value read belongs to the target's type", "statement": "Whatever bytes are read, with or without an error and however often into the same target: integers stay in their range, enumerators are 0 or a listed value, flags are unions of listed values, sets and maps stay sorted, fixed buffers keep their length, and struct invariants over the members are kept.", "quantifier": "all descriptions (by composition), all byte strings, all histories of calls", "why_tests_cant": "Infinite; the interesting inputs are malformed.", "anchors": ["wjson/serializer/array.hpp", "wjson/serializer/bool.hpp", "wjson/serializer/enumerator.hpp", "wjson/serializer/field.hpp", "wjson/serializer/flags.hpp", "wjson/serializer/float.hpp", "wjson/serializer/iterator_pair.hpp", "wjson/serializer/member_value.hpp", "wjson/serializer/number.hpp", "wjson/serializer/object.hpp", "wjson/serializer/object_array.hpp", "wjson/serializer/pointer.hpp", "wjson/serializer/quoted.hpp", "wjson/serializer/raw_value.hpp", "wjson/serializer/size_value.hpp", "wjson/serializer/string.hpp", "wjson/serializer/time_interval.hpp", "wjson/specialization/array.hpp", "wjson/specialization/base.hpp", "wjson/specialization/dict.hpp", "wjson/specialization/enum_value.hpp", "wjson/specialization/enumerator.hpp", "wjson/specialization/flags.hpp", "wjson/specialization/iterator_pair.hpp", "wjson/specialization/member.hpp", "wjson/specialization/member_array.hpp", "wjson/specialization/member_if.hpp", "wjson/specialization/member_p.hpp", "wjson/specialization/member_value.hpp", "wjson/specialization/object.hpp", "wjson/specialization/object_array.hpp", "wjson/specialization/pointer.hpp", "wjson/specialization/property.hpp", "wjson/specialization/quoted.hpp", "wjson/specialization/raw_value.hpp", "wjson/specialization/size_value.hpp", "wjson/specialization/time_interval.hpp", "wjson/specialization/value.hpp"]}
{"id": "C69", "title": "Reading and writing once is stable", "statement": "Whatever text is read, the text written for the result reads back as the same value and is reproduced by writing it again; it is JSON when all values of the type have JSON outputs. For strings, enumerators, raw values, times and sizes, whose types hold values that do not survive, the same for what was read without error from texts without control characters.", "quantifier": "all descriptions whose whole type survives a round trip, all byte strings; further descriptions and all texts read without error", "why_tests_cant": "Infinite.", "anchors": ["wjson/serializer/array.hpp", "wjson/serializer/bool.hpp", "wjson/serializer/enumerator.hpp", "wjson/serializer/field.hpp", "wjson/serializer/flags.hpp", "wjson/serializer/float.hpp", "wjson/serializer/iterator_pair.hpp", "wjson/serializer/member_value.hpp", "wjson/serializer/number.hpp", "wjson/serializer/object.hpp", "wjson/serializer/object_array.hpp", "wjson/serializer/pointer.hpp", "wjson/serializer/quoted.hpp", "wjson/serializer/raw_value.hpp", "wjson/serializer/size_value.hpp", "wjson/serializer/string.hpp", "wjson/serializer/time_interval.hpp"]}
{"id": "C70", "title": "A typed read that succeeds consumed a document", "statement": "If reading through a description reports no error, the consumed text is a value of the language parser::parse recognises, so validating it finds nothing wrong; texts that are no JSON are reported.", "quantifier": "all descriptions (by composition), all byte strings, all old values", "why_tests_cant": "Infinite; validators and readers are separate code and are compared on a few inputs only.", "anchors": ["wjson/parser.hpp: parse", "wjson/serializer/array.hpp", "wjson/serializer/bool.hpp", "wjson/serializer/enumerator.hpp", "wjson/serializer/field.hpp", "wjson/serializer/flags.hpp", "wjson/serializer/float.hpp", "wjson/serializer/iterator_pair.hpp", "wjson/serializer/member_value.hpp", "wjson/serializer/number.hpp", "wjson/serializer/object.hpp", "wjson/serializer/object_array.hpp", "wjson/serializer/pointer.hpp", "wjson/serializer/quoted.hpp", "wjson/serializer/raw_value.hpp", "wjson/serializer/size_value.hpp", "wjson/serializer/string.hpp", "wjson/serializer/time_interval.hpp"]}
{"id": "C71", "title": "Containers report exactly what is wrong and keep what was read", "statement": "Reading arrays, dictionaries and fixed-size arrays: for a wrong opening bracket, a missing separator or colon, surplus elements, a truncated text and a failing element, at any depth of nesting, the error code, the expected text and the position are determined, and the target holds exactly the elements read up to that place.", "quantifier": "all element descriptions, all well-formed prefixes with any gaps, all continuations, all old values", "why_tests_cant": "Every failing position of every nesting; tests look at the code of a few errors only.", "anchors": ["wjson/serializer/array.hpp: 44-88, 114-267", "wjson/serializer/field.hpp: 16-49"]}
{"id": "C72", "title": "Structs report exactly what is wrong and keep what was read", "statement": "Reading objects and object arrays: a missing separator, colon or name, an unlisted member of a strict struct (the first one), a truncated text and a failing member value are reported with a fixed code, expected text and position, and the struct holds exactly what the members before that place stored.", "quantifier": "all member lists with distinct names, all well-formed prefixes in any order, all continuations, all old values", "why_tests_cant": "Every failing position of every member order.", "anchors": ["wjson/serializer/object.hpp: 31-243", "wjson/serializer/object_array.hpp: 32-227"]}
{"id": "C73", "title": "Values report exactly what is wrong, wrappers pass it on", "statement": "Integers, booleans and strings report the position of the offending byte and what is left in the target; member_value, pointers and optional quoting report what their value reports.", "quantifier": "all integer types, all texts of the failing shapes, all wrapped descriptions", "why_tests_cant": "All prefixes and continuations.", "anchors": ["wjson/parser.hpp: unserialize_integer", "wjson/serializer/bool.hpp: 20-62", "wjson/serializer/string.hpp: 86-128", "wjson/serializer/pointer.hpp"]}
{"id": "C74", "title": "Builds without libstdc++ write floating-point numbers whole", "statement": "Without __GLIBCXX__ the text of a number is written unchanged, whatever its length; with it the output is the beginning of that text, at most bufsize characters, and the two agree exactly on the numbers that fit. The shared reader gives back the numbers that fit in either build.", "quantifier": "all formatting functions, all precisions, all values", "why_tests_cant": "Only one of the branches is compiled in any test run.", "anchors": ["wjson/serializer/float.hpp: 22-80"]}
{"id": "C75", "title": "Gaps between tokens do not influence a typed read", "statement": "Two texts that consist of the same tokens, with any whitespace and comments between them, are read alike by a typed read: both give the same value and stop in front of the same rest, or both report an error and leave the same value. So running parser::despace first changes nothing.", "quantifier": "all descriptions (by composition), all token sequences, well-formed or not, all gaps, all old values", "why_tests_cant": "Infinite: every gap at every place of every description.", "anchors": ["wjson/parser.hpp: parse_space", "wjson/serializer/array.hpp", "wjson/serializer/bool.hpp", "wjson/serializer/enumerator.hpp", "wjson/serializer/field.hpp", "wjson/serializer/flags.hpp", "wjson/serializer/float.hpp", "wjson/serializer/iterator_pair.hpp", "wjson/serializer/member_value.hpp", "wjson/serializer/number.hpp", "wjson/serializer/object.hpp", "wjson/serializer/object_array.hpp", "wjson/serializer/pointer.hpp", "wjson/serializer/quoted.hpp", "wjson/serializer/raw_value.hpp", "wjson/serializer/size_value.hpp", "wjson/serializer/string.hpp", "wjson/serializer/time_interval.hpp"]}
{"id": "C76", "title": "Strings are read exactly from their literals", "statement": "Reading std::string, std::vector<char> or char[N] succeeds exactly for null and for literals made of plain bytes, UTF-8 characters, the eight short escapes, \\uXXXX and \\xHH (for char arrays: that fit), and stores exactly their decoding; everything else reports an error.", "quantifier": "all byte strings, all array sizes, all old values", "why_tests_cant": "Infinite; both directions over all inputs.", "anchors": ["wjson/serializer/string.hpp: 86-370"]}
{"id": "C77", "title": "Numbers and enumerators are read exactly from their tokens", "statement": "Reading an integer, floating-point number or enumerator succeeds exactly for null (numbers only) and for the texts of the respective token grammar; the value stored and the place where reading stops are determined by that token.", "quantifier": "all integer types, all text conversions, all enumerations, all byte strings, all old values", "why_tests_cant": "Infinite; both directions over all inputs.", "anchors": ["wjson/parser.hpp: 632-659", "wjson/serializer/number.hpp: 102-123", "wjson/serializer/float.hpp: 56-80", "wjson/serializer/enumerator.hpp: 31-101"]}
{"id": "C78", "title": "Containers are read exactly from element lists", "statement": "Reading an array, dictionary or fixed-size array succeeds exactly for null and for bracketed lists of texts the element reads, separated by commas and gaps; the container then holds exactly the elements read, in the order and with the multiplicity its inserter gives them.", "quantifier": "all element descriptions, all containers, all byte strings, all old values", "why_tests_cant": "Infinite; both directions over all inputs.", "anchors": ["wjson/serializer/array.hpp: 44-88, 114-267", "wjson/serializer/field.hpp: 16-49"]}
{"id": "C79", "title": "Structs are read exactly from member lists", "statement": "Reading an object or object array succeeds exactly for null, for an empty object or array, and for braces around members (elements) whose values the listed members read; which member a name goes to, what is skipped, where a trailing comma is accepted and what the struct holds afterwards is determined by one small relation.", "quantifier": "all member lists without member_if, all names without quotes and backslashes, both modes, all byte strings, all old values", "why_tests_cant": "Infinite; both directions over all inputs and member orders.", "anchors": ["wjson/serializer/object.hpp: 31-306", "wjson/serializer/object_array.hpp: 32-227"]}
{"id": "C80", "title": "Wrappers are read exactly from what they wrap", "statement": "Reading a bool, pointer, quoted, raw_quoted, raw_value or member_value succeeds exactly for the texts given by the wrapped description (or the JSON language) and stores exactly the corresponding value.", "quantifier": "all wrapped descriptions, all byte strings, all old values", "why_tests_cant": "Infinite; both directions over all inputs.", "anchors": ["wjson/serializer/bool.hpp: 20-62", "wjson/serializer/pointer.hpp: 33-67", "wjson/serializer/quoted.hpp: 30-121", "wjson/serializer/raw_value.hpp", "wjson/serializer/member_value.hpp"]}
{"id": "C81", "title": "Times and sizes are read exactly from sums and multiples", "statement": "Reading a time_interval succeeds exactly for integers, null and quoted sums of numbers with units, a size_value exactly for integers, null and literals with one number and an optional unit; the value stored is given by the arithmetic of the C++ type, and nothing is read where that arithmetic overflows.", "quantifier": "all integer types, all fractions and metrics, all byte strings", "why_tests_cant": "Infinite; both directions over all inputs.", "anchors": ["wjson/serializer/time_interval.hpp: 46-110", "wjson/serializer/size_value.hpp: 59-120"]}
{"id": "C82", "title": "What the parser reports is determined by the text", "statement": "A text that is no JSON value makes parser::parse fail in exactly one way, described by a grammar of failures over the text: the code, the expected text and the distance of the position from the end, or reading *end where that is impossible. The same holds for every parse_* function called directly.", "quantifier": "all byte strings, all bytes at *end, all error objects", "why_tests_cant": "Infinite: every malformed text, both directions.", "anchors": ["wjson/parser.hpp: 158-623"]}
{"id": "C83", "title": "What typed readers refuse, report and leave behind", "statement": "Reading a string, char array, integer, bool, floating-point number or enumerator fails exactly for the texts given by a small grammar of failures, which also determines the error code, the expected text, the position, the value left in the target and the rest returned (not the end after a bad hexadecimal digit); every read succeeds, fails in this sense or is undefined behaviour.", "quantifier": "all byte strings, all old values, all integer types, array sizes, enumerator lists and modes", "why_tests_cant": "Infinite: every malformed text, both directions.", "anchors": ["wjson/serializer/string.hpp: 86-370", "wjson/parser.hpp: 632-659", "wjson/serializer/number.hpp: 102-123", "wjson/serializer/bool.hpp: 20-62", "wjson/serializer/float.hpp: 56-80", "wjson/serializer/enumerator.hpp: 31-101"]}
{"id": "C84", "title": "What wrappers, times and sizes refuse, report and leave behind", "statement": "Reading a pointer, quoted value, raw value, raw_quoted value, member_value, time_interval or size_value fails exactly when the wrapped description or one of the wrapper's own rules does; report, target and rest returned follow from the failure of the wrapped description.", "quantifier": "all wrapped descriptions, all byte strings, all old values, all fractions and metrics", "why_tests_cant": "Infinite: every malformed text, both directions.", "anchors": ["wjson/serializer/pointer.hpp: 33-67", "wjson/serializer/quoted.hpp: 30-121", "wjson/serializer/raw_value.hpp", "wjson/serializer/member_value.hpp", "wjson/serializer/time_interval.hpp: 46-110", "wjson/serializer/size_value.hpp: 59-120"]}
{"id": "C85", "title": "Times are written canonically", "statement": "A time_interval is written as days, hours, minutes and seconds of one sign (hours below 24, minutes and seconds below 60, zero parts left out), followed by milli- and microseconds below 1000; this determines the text. Negative values do not: microseconds lose their fraction of a second, and milliseconds get a huge positive number of microseconds instead of the fraction.", "quantifier": "all integer types, all values in the domain of C44, all negative values", "why_tests_cant": "Infinite; exact text for every value.", "anchors": ["wjson/serializer/time_interval.hpp: 21-44, 114-123"]}
{"id": "C86", "title": "Sizes are written in the largest unit that divides them", "statement": "A size_value is written in the largest unit the type can hold that divides the number of bytes, decimal before binary if the metric is decimal and binary before decimal otherwise; zero in the unit of the metric; as a plain number if no unit fits. This determines the text; more than 2^63 bytes are undefined behaviour.", "quantifier": "all integer types, all metrics, all values", "why_tests_cant": "Infinite; exact text for every value.", "anchors": ["wjson/serializer/size_value.hpp: 23-57, 124-154"]}
{"id": "C87", "title": "Flags are read exactly from lists and separated words", "statement": "Reading flags from an array of names or from a string of separated names is determined by the text: which names set their flag, what is skipped (unknown names when not strict), which missing or repeated separators are accepted, where reading stops; and for every other text the error code, its position and the union of the flags read before it. Two spaces lose the name behind them if the separator is a space.", "quantifier": "all lists of distinct names without quotes, spaces, slashes and the separator, all separators, both modes, all byte strings, all old values", "why_tests_cant": "Infinite; both directions over all inputs.", "anchors": ["wjson/serializer/flags.hpp: 30-233"]}
{"id": "C88", "title": "Every outcome of reading a container is determined", "statement": "For arrays, dictionaries, their members and fixed-size arrays one small relation gives, for every text and every error record passed in, all that reading can lead to: the elements stored, the rest returned and the error record left, whether reading succeeds, fails, or goes on behind an error already reported. The outcome of an element is taken from its own description, so the relation composes over nesting.", "quantifier": "all element descriptions, all containers, all array sizes, all byte strings, all error records, all old values", "why_tests_cant": "Infinite; both directions over all inputs, including reads with an error already set.", "anchors": ["wjson/serializer/array.hpp: 44-88, 114-267", "wjson/serializer/field.hpp: 16-49"]}
{"id": "C89", "title": "Every outcome of reading a struct is determined", "statement": "For objects and object arrays, with members, properties and member_if alternatives, one small relation gives, for every text and every error record passed in, the struct left, the rest returned and the error record left: which member a name goes to, what a cut-off or wrong name does, which alternative of a member_if is taken and what the other one is reset to, what is skipped, what strict structs report.", "quantifier": "all member lists with names without quotes and backslashes, both modes, all byte strings, all bytes at *end, all error records, all old values", "why_tests_cant": "Infinite; both directions over all inputs, including reads with an error already set.", "anchors": ["wjson/serializer/object.hpp: 31-337", "wjson/serializer/object_array.hpp: 32-227"]}
{"id": "C90", "title": "What a read stores does not depend on what the target held before", "statement": "Reading any value, container, dictionary, quoted value or pointer from an accepted text gives the same value and rest whatever the target and the uninitialised locals of the container loops held. Except for floating-point numbers, quotes and dictionary members this also holds for refused texts: stored value, report and rest are the same. A refused floating-point or quoted element however is inserted as whatever the local contained, and structs and fixed-size arrays keep what the text does not mention.", "quantifier": "all descriptions built from values, containers, dictionaries, quotes and pointers, all byte strings, all old values and local contents", "why_tests_cant": "Indeterminate contents cannot be enumerated by a test.", "anchors": ["wjson/serializer/array.hpp: 46-89", "wjson/serializer/field.hpp: 35-48", "wjson/serializer/pointer.hpp: 33-67", "wjson/serializer/quoted.hpp: 61-121", "wjson/serializer/float.hpp: 56-80"]}
{"id": "C91", "title": "Exactly which integers and strings survive a round trip", "statement": "A string (char array) is given back by writing and reading it exactly if it contains no control character without short escape and no five- or six-byte character (and, for char arrays, only zeros behind the first zero). Control characters come back as the text of their escape sequence, and a second round trip changes nothing; the first five- or six-byte character is refused with a report that points at it. An integer is given back unless it is the smallest one of int or a wider signed type, whose text is undefined behaviour to read.", "quantifier": "all byte strings, all array sizes, all integer types, all values", "why_tests_cant": "Infinite; both directions over all values.", "anchors": ["wjson/serializer/string.hpp: 31-84, 86-370", "wjson/serializer/number.hpp", "wjson/parser.hpp: 632-659"]}
{"id": "C92", "title": "Reading looks at most one byte behind a value", "statement": "If a value is read from a text, it is read in the same way whatever follows the first byte behind it. Containers, structs, strings, quoted values, booleans and enumerators tell where they end: they are read in the same way whatever follows, and none of their proper prefixes is accepted. Numbers, pointers and times do not: a prefix of theirs may be accepted.", "quantifier": "all descriptions without floating-point numbers, flags and member_if, all accepted texts, all continuations, all bytes at *end", "why_tests_cant": "Quantifies over all pairs of texts with a common beginning.", "anchors": ["wjson/serializer/array.hpp", "wjson/serializer/object.hpp", "wjson/serializer/string.hpp", "wjson/serializer/number.hpp", "wjson/serializer/time_interval.hpp: 46-110", "wjson/serializer/pointer.hpp: 33-67", "wjson/parser.hpp"]}
{"id": "C93", "title": "Exactly which time intervals survive a round trip", "statement": "A time interval in milliseconds is given back by writing and reading it exactly if its fraction of a second is zero, or positive and the value an int64_t, or 1 or 2 ms in an int, or one of 35 listed fractions in a short. In unsigned types every fraction is lost, and negative fractions are lost in every type. A time interval in microseconds is given back exactly if it is not negative or a whole number of seconds. int64_t is the only type in which milliseconds lose no duration.", "quantifier": "all integer types that can hold 1000 (1000000), all values, all old values", "why_tests_cant": "2^64 values; both directions.", "anchors": ["wjson/serializer/time_interval.hpp: 21-125"]}
{"id": "C94", "title": "Exactly which sizes survive a round trip", "statement": "A size is given back by writing and reading it exactly if its byte count, the value times the metric, fits in int64_t, or if it is a uint64_t v from 2^63 on for which 2^64 - (2^64 - v) * metric is at least 2^63 and divisible neither by 1000 nor by 1024, so that no unit is written. Bytes in a signed type always survive; bytes from 2^63 on survive exactly if neither 1000 nor 1024 divides them.", "quantifier": "all integer types of 2, 4 and 8 bytes, all metrics below 2^63, all values, all old values", "why_tests_cant": "2^64 values times 2^63 metrics; both directions.", "anchors": ["wjson/serializer/size_value.hpp: 17-155"]}
{"id": "C95", "title": "Exactly when reading is undefined behaviour", "statement": "Reading an integer is undefined exactly if the type is signed, of int or wider, and the numeral exceeds its maximum in absolute value. A time is undefined exactly if a number or the sum so far overflows or the text ends in \"mk\"; a size exactly if its 32-byte buffer has no zero, or its number or its byte count overflows. With an error already reported a time depends on its first number only and a size is undefined only as a bare number. A container, dictionary, fixed array, struct or struct as an array is undefined exactly if an element or member whose reading is undefined is reached through the ones before it, if a skipped value ends in a gap behind a bracket or a comma, or if a struct text is an opening square bracket and a gap and the byte behind the text may not be read or is a closing bracket. Pointers, quoted and raw values add nothing of their own. Strings, character arrays, booleans, enumerators, flags with at least one name and floating-point numbers are never undefined, whatever stands behind the text.", "quantifier": "all texts, all old values, no error or any reported error at the start, all element types that obey the reader laws", "why_tests_cant": "Undefined behaviour need not show in a test; the statement is about every text, in both directions.", "anchors": ["wjson/serializer/number.hpp", "wjson/serializer/time_interval.hpp: 46-110", "wjson/serializer/size_value.hpp: 59-122", "wjson/serializer/array.hpp", "wjson/serializer/object.hpp", "wjson/serializer/object_array.hpp", "wjson/serializer/quoted.hpp: 30-121", "wjson/serializer/pointer.hpp"]}
{"id": "C96", "title": "Different values are written differently", "statement": "No two different values of a description are written as the same text, and the text of one is no beginning of the text of the other up to a byte that cannot continue a number. This holds for every integer including the minimum, for strings of any bytes including those that are not read back, for everything that survives a round trip, and for containers, dictionaries, structs, quoted values and pointers made of these. It fails for values an enumerator does not list, an empty raw value, pointers to pointers, negative microseconds and structs with member_if.", "quantifier": "all descriptions built from these types, all pairs of values, all continuations", "why_tests_cant": "Quantifies over pairs of values of unbounded types; the values that collide are few.", "anchors": ["wjson/serializer/string.hpp: 31-154", "wjson/serializer/number.hpp", "wjson/serializer/array.hpp", "wjson/serializer/field.hpp", "wjson/serializer/object.hpp: 22-139", "wjson/serializer/object_array.hpp", "wjson/serializer/quoted.hpp: 82-95", "wjson/serializer/pointer.hpp: 19-31"]}
{"id": "C97", "title": "What is written is compact", "statement": "The text written for a value contains no whitespace and no comments between its tokens: it is JSON by the grammar of RFC 8259 with every optional whitespace left out. despace leaves such texts unchanged and turns every JSON text, with whitespace and comments around it, into one; the compact texts are exactly the JSON texts it leaves unchanged. Raw values are the exception: they are written with the spaces they contain.", "quantifier": "all descriptions whose output is JSON (raw values: compact ones), all values, all JSON texts", "why_tests_cant": "Quantifies over all descriptions and values, and over all JSON texts in both directions.", "anchors": ["wjson/serializer/array.hpp", "wjson/serializer/field.hpp", "wjson/serializer/object.hpp: 22-139", "wjson/serializer/object_array.hpp", "wjson/serializer/flags.hpp", "wjson/parser.hpp", "wjson/serializer/raw_value.hpp: 16-44"]}
{"id": "C98", "title": "Texts written through one type are read through another", "statement": "A text written through one description is read through another as expected. Any array-like container is read as a vector of what its elements become, as a set (sorted, the first of equivalent elements), a multiset (sorted, all of them) or a fixed array (the first N, the rest kept); dictionaries likewise. A value can become a pointer and a pointer its value; an empty pointer becomes the empty value. An integer stays the same in a type that has it and wraps modulo 2^bits without any error in a short or unsigned type that does not. Enumerators are read as strings, anything as a raw value and raw values as anything that reads their text; strings and character arrays can be exchanged. A struct is read as another struct: members of the same name are handed over, every other part of the target stays as it was, and a nonstrict reader leaves out the members it does not know; it is also read as a dictionary of its members. A strict reader refuses the extra members, a signed type of int or wider overflows, and a short character array refuses the text.", "quantifier": "all pairs of descriptions of these kinds, all values, all old contents of the target", "why_tests_cant": "Tests read what the same type wrote; here the pairs of types, structs and values are unbounded.", "anchors": ["wjson/serializer/array.hpp", "wjson/specialization/dict.hpp", "wjson/serializer/field.hpp", "wjson/serializer/object.hpp", "wjson/serializer/pointer.hpp", "wjson/serializer/number.hpp", "wjson/serializer/enumerator.hpp", "wjson/serializer/raw_value.hpp", "wjson/serializer/string.hpp"]}
{"id": "C99", "title": "A value can be read later from the text a raw value has kept", "statement": "When a raw value has kept the text t of a JSON value, reading t afterwards through another description gives the same value as reading through that description at once, and is refused exactly when that would have been. Conversely, whatever a description reads as an element or a member (unless the text contains an escape or a character only the string reader accepts), a raw value keeps. Hence an array or dictionary of raw values whose elements are read later gives the container read at once and vice versa, and every text a struct reads is read by the same struct with raw members, whose kept texts give the same members later. The last one has no converse: when a member is given twice, only the last text is kept, but the typed struct must read both.", "quantifier": "all texts, all descriptions without floats, flags, member_if and unordered containers (the kind of container is arbitrary), all structs with any of their members replaced", "why_tests_cant": "Deferring is used for requests whose parameters are dispatched on their method; the texts and types are unbounded.", "anchors": ["wjson/serializer/raw_value.hpp", "wjson/serializer/array.hpp", "wjson/serializer/field.hpp", "wjson/serializer/object.hpp", "wjson/parser.hpp"]}
{"id": "C100", "title": "Each recogniser of the parser accepts exactly its part of the grammar, and the predicates choose it", "statement": "Called on their own, parse_null, parse_bool, parse_integer, parse_hex, parse_utf8, parse_array, parse_object and parse_member succeed exactly on a beginning of the text that belongs to their part of the grammar, and stop behind it. parse_object also accepts an empty array, with or without a gap inside. In front of a JSON value is_null, is_bool, is_number, is_string, is_array and is_object hold exactly for the values of their kind; every value has a kind and only an empty array has two. On other texts they prove nothing, since they look at the first byte only. is_space sees every gap parse_space skips except one that starts with a lone slash.", "quantifier": "all texts, all values, all continuations, any byte behind the text", "why_tests_cant": "Each recogniser has infinitely many accepted and refused texts; the library's tests call a few of them on a handful of texts.", "anchors": ["wjson/parser.hpp"]}
{"id": "C101", "title": "The parsing loop of example17 recognises arrays and prints their strings", "statement": "show_parse succeeds exactly on a text that begins with an optional gap and an array: elements separated by commas and gaps, a comma allowed before the closing bracket. It prints the strings among the elements, in order, and returns what follows the bracket. It ends on every text, returns a position inside it, and returns the end whenever it reports an error. The strings of an array the library has written are printed unchanged. When it fails, the report and the strings printed before it are determined by where the text stops being an array: at its end, at a bad string or other element, at a missing separator, inside a comment, or before the opening bracket. It needs a json_error, and it reads the byte behind the text exactly if the text ends in a gap inside the array, in an open comment there, or in an element whose parser reads it.", "quantifier": "all texts, any byte or none behind the text, all lists of strings", "why_tests_cant": "The loop has been tried on one text; the accepted and refused texts are infinitely many.", "anchors": ["examples/example17.cpp: 5-50", "wjson/parser.hpp", "wjson/serializer/string.hpp"]}
{"id": "C102", "title": "What the dispatching programs of example11 and example16 print", "statement": "Given an array, example11 prints the array in which each number is replaced by its integer part plus one, each string by a string of the int at its beginning (zero if there is none) plus one, each array of ints by itself, and everything else by null. example16 keeps null, replaces a boolean by true, negates the integer part of a number, reverses the bytes of a string and the elements of an array of at least two ints, and drops objects. In particular an array of ints is mapped to the incremented, or negated, array. An inner array of fewer than two ints makes example16 undefined, INT_MAX makes example11 undefined, and the output promised by the comment in example11 is not the one it produces.", "quantifier": "all array texts, all elements of these kinds, all lists of ints", "why_tests_cant": "End-to-end statement over all inputs; the programs run on one built-in text each.", "anchors": ["examples/example11.cpp: 5-58", "examples/example16.cpp: 6-70", "wjson/parser.hpp", "wjson/serializer/raw_value.hpp", "wjson/serializer/array.hpp"]}
{"id": "C103", "title": "Containers differ only in how they store what they read", "statement": "Given the same text, sets, multisets, unordered sets and multisets and the dictionaries over them stop where a vector stops, report the same error, and are undefined when it is. When a vector holds the elements l afterwards, even after an error, a set holds the first of each class of equivalent elements of l in order, a multiset all of l in the order its insertion hints give, an unordered container the first of each class or all of l in some order. Whatever a fixed array reads a vector reads as at most N elements, which the array stores in front of its old ones; conversely it reads every vector text of fewer than N elements. It refuses a comma followed by a gap behind the Nth.", "quantifier": "all texts, element descriptions, orders, equalities, hash tables, old contents and incoming error states", "why_tests_cant": "The texts, element types and orders are unbounded, and the agreement also holds on refused texts.", "anchors": ["wjson/serializer/array.hpp", "wjson/specialization/array.hpp", "wjson/specialization/dict.hpp", "wjson/serializer/field.hpp"]}
{"id": "C104", "title": "How long written texts are, and how far a serializer reaches into a buffer", "statement": "The length of a written text lies between two bounds computed from the value. They coincide for integers (their digits and sign), booleans, raw values and whatever is built of them: a container needs two brackets, its elements and a comma between neighbours, a member its name and three bytes more. A string of n bytes needs n+2 to 6n+2, both attained for every n; an integer at most the longest numeral of its type, which is attained; enumerators and flags what their names need; floating-point numbers the buffer; sizes 25 and times six numerals and 11 bytes. A serializer writing through a char* changes no byte in front of it and none at or behind the upper bound, so that a buffer of that size is enough. An empty pointer needs one byte more than its text.", "quantifier": "all descriptions of this library, all values in their types, all buffers", "why_tests_cant": "The size of a buffer is safe only if it is for every value; tests see a few lengths.", "anchors": ["wjson/serializer/string.hpp: 31-154", "wjson/serializer/number.hpp", "wjson/serializer/float.hpp", "wjson/serializer/array.hpp", "wjson/serializer/field.hpp", "wjson/serializer/object.hpp: 22-139", "wjson/serializer/object_array.hpp", "wjson/serializer/pointer.hpp: 19-31", "wjson/serializer/time_interval.hpp", "wjson/serializer/size_value.hpp", "wjson/serializer/flags.hpp"]}
{"id": "C105", "title": "What is written denotes the document that describes the value, and no other", "statement": "A JSON text denotes a document: null, a boolean, an integer or other number, a string of characters after unescaping, an array of documents, an object of named documents. Every JSON text denotes at most one. The text written for a value is JSON and denotes the document its description assigns to it: an integer its number, a string its characters, a container the array of its elements' documents in order, a dictionary or struct the object of its keys or member names, a conditional member the alternative it selects, an empty pointer null, a quoted value the string whose text denotes the value, flags the array or joined string of the names that are set. So two values with different documents never produce texts that denote the same one.", "quantifier": "all descriptions in says, all values in their domains", "why_tests_cant": "Values and texts are unbounded; tests compare texts with expected texts, not with what a conforming reader would make of them.", "anchors": ["wjson/serializer/string.hpp", "wjson/serializer/array.hpp", "wjson/serializer/object.hpp", "wjson/serializer/object_array.hpp", "wjson/serializer/quoted.hpp", "wjson/serializer/pointer.hpp", "wjson/serializer/enumerator.hpp"]}
{"id": "C106", "title": "Every spelling of a document is read as that document says", "statement": "Take a document and any JSON text that denotes it: any gaps that are white space, any escapes in strings that are no surrogate pairs and no escaped controls without a short form, names without escapes, any order of members, unknown members in non-strict mode. Each description reads it as the function the document stands for: the value of an integer or string, the elements of a container (ordered and merged for sets and maps), the members of a struct applied in turn to the old value, nothing for null. Together with the previous property, a written text may be rewritten by any conforming tool and is still read as the value it was written for. Surrogate pairs, escaped control characters, escaped member names and escaped enumerators are read as something else.", "quantifier": "all documents, all their spellings, all descriptions in sees, all old values and continuations", "why_tests_cant": "Every document has infinitely many spellings.", "anchors": ["wjson/parser.hpp", "wjson/serializer/string.hpp", "wjson/serializer/array.hpp", "wjson/serializer/object.hpp", "wjson/serializer/object_array.hpp", "wjson/serializer/quoted.hpp", "wjson/serializer/pointer.hpp", "wjson/serializer/enumerator.hpp"]}
{"id": "C107", "title": "Values one after another are read in turn, also from a log that was torn", "statement": "Values written one after another with whitespace in between are read back in turn by the usual loop: skip a gap, stop at the end, read, go on behind. Strings, containers, structs and other values that tell where they end need nothing in between. The loop ends, and it gives a list without an error exactly if the text consists of gaps and values read as that list. If a log is torn at any byte, the loop gives exactly the records that lie entirely in front of the tear; it reports an error exactly if something other than a gap is left, so a record is never lost, invented or read in part. A text that is cut short is not the worse for it: reading it is undefined only if reading the whole is, and a reader that stops in front of the cut would have stopped there, with the same value, whatever followed. Only time_interval is worse off: a text cut behind \"mk\" makes it step over the end.", "quantifier": "all descriptions in cuttable and tight, all lists of values, separators, logs and points at which they are torn", "why_tests_cant": "Logs, crash points and fragment boundaries are unbounded; a torn record might be taken for a complete one at just one of them.", "anchors": ["wjson/parser.hpp: parse_space", "wjson/serializer/array.hpp", "wjson/serializer/object.hpp", "wjson/serializer/object_array.hpp", "wjson/serializer/string.hpp", "wjson/serializer/number.hpp", "wjson/serializer/enumerator.hpp", "wjson/serializer/quoted.hpp", "wjson/serializer/raw_value.hpp", "wjson/serializer/size_value.hpp", "wjson/serializer/time_interval.hpp"]}
{"id": "C108", "title": "Parsing recurses exactly as deep as the text nests", "statement": "Every value the parser takes has one nesting depth: the number of brackets with something in them that lie inside one another. Parsing it calls parse_value one level deeper than that and not deeper, whatever follows the value; long arrays, objects, strings and numbers take no further level. Of any text at all, also refused or cut short, one level more than its opening brackets is enough. No fixed number of levels is enough for all texts: a text of 2n+2 bytes needs more than n, so a hostile text of a few hundred kilobytes can exhaust the stack, here and wherever a value of no interest is skipped.", "quantifier": "all texts, all byte values behind their end, all numbers of levels", "why_tests_cant": "Depth is unbounded; tests nest two or three levels.", "anchors": ["wjson/parser.hpp: 533-623"]}
{"id": "C109", "title": "What is read holds no more than the bytes it was read from", "statement": "Count in a value the bytes of its strings and raw values and the elements of its containers; numbers, booleans, enumerators, flags, char arrays and times are of fixed size and count nothing. Whatever the text, accepted, refused or cut short: what the value holds after reading, together with the bytes left of the text, is no more than it held before, together with the text. Read into a new value, there is at most one byte or element for each byte consumed, so no short text makes a reader allocate much. What an alternative of a member_if has taken before it failed is given back. Strings and containers are cleared first, their old contents do not count. Fixed-size arrays of raw values are the exception: a null, or any text that begins with an n, is handed to each of the N elements and each keeps its own copy.", "quantifier": "all descriptions in weighs, all texts, old values, error states and bytes behind the end", "why_tests_cant": "The claim is about the worst text, which tests do not know.", "anchors": ["wjson/serializer/string.hpp: 86-283", "wjson/serializer/array.hpp", "wjson/serializer/field.hpp", "wjson/serializer/object.hpp", "wjson/serializer/object_array.hpp", "wjson/serializer/quoted.hpp", "wjson/serializer/raw_value.hpp", "wjson/serializer/pointer.hpp", "wjson/specialization/array.hpp", "wjson/specialization/dict.hpp"]}
{"id": "C110", "title": "A number is read as the nearest floating-point value", "statement": "A JSON number stands for a rational number, and only one. If its text fits the buffer of the deserializer (20 characters, or 20 and the precision), float, double and long double are set to the value of the type nearest to it, of two equally near ones to the even one, with the sign of the text (also of zero); what is too large becomes the largest finite value, what is too small a subnormal value or zero. There is exactly one such value. The number is consumed entirely and no error is reported. A longer number is cut before it is converted and may be read as one a thousand times smaller, without an error. Cut between the exponent mark and its digits it is read as 0. null is 0, and whatever is read, broken texts included, the value stays finite. Nothing else is read without an error: what is taken, if it fits the buffer and no digit follows, is null or a JSON number with its nearest value, whatever follows it. A digit behind a zero is left in the text, but the value depends on it and on the digits after it (012 reads as 12).", "quantifier": "all formats of 2 to 64 bits of precision and exponents up to those of long double, all JSON numbers that fit, all precisions, old values, continuations and error states", "why_tests_cant": "There are infinitely many numbers, and ties and the edges of the range are rare among those one thinks of.", "anchors": ["wjson/serializer/float.hpp: 57-80"]}
{"id": "C111", "title": "Fixed precision: what is written, and what comes back", "statement": "A finite value of at most 18 digits in front of the point is written with exactly R digits behind it, as a number that is at most half a unit of the last digit away, with its sign. Reading this text and writing the value read gives the same text, so values settle after one exchange. Values with at most R decimal digits come back unchanged, and so do values whose neighbours are further away than two units of the last digit. The other way round, a decimal text of R digits behind the point that stands for fewer than 2^(precision-1) units of its last digit is read and written unchanged: for double, any 15 digits. One third does not come back, and 1e22 written with two digits comes back as 1e21.", "quantifier": "all formats, precisions R, finite values up to 10^18-1 and decimal texts", "why_tests_cant": "Rounding twice is where conversions go wrong, for a few values in 2^64.", "anchors": ["wjson/serializer/float.hpp: 25-54", "wjson/serializer/float.hpp: 57-80"]}
{"id": "C112", "title": "Scientific notation: what is written, and what comes back", "statement": "Any finite value is written in at most 15 characters with one digit before the point, not 0 unless the value is, and six behind it. The text stands for a number within half a unit of the seventh digit, relative error at most 1/2000000, and has the sign of the value, also of zero. For double and long double, reading this text and writing the value read gives the same text, subnormal values included; for float it does not: one value near 1e28 is written 1.000000e+28, which is read as a value that is written 9.999999e+27. Values of at most seven significant decimal digits come back unchanged, others, like one third, do not.", "quantifier": "all formats and finite values; double and long double where the text comes back", "why_tests_cant": "2^64 and 2^80 values; the exception for float occurs at one power of ten.", "anchors": ["wjson/serializer/float.hpp: 25-54", "wjson/serializer/float.hpp: 57-80"]}
{"id": "C113", "title": "What does not come back as it was settles after one exchange, inside any description", "statement": "Some values are not read back as they were written: floating-point values (rounded to R decimals or to seven digits), flags with bits that have no name, char arrays with bytes behind the end of their text, empty raw values. For each there is exactly one value it comes back as, said without the code: the value of the type nearest to the rounded decimal number, the named bits, the text padded with zeros, the two quotes. In any composition of these and all other types into containers, dictionaries, fixed arrays, structs (as objects and as arrays), quoted values and pointers, a value whose parts have such partners is written, read back as the value made of the partners, and the partner is written as the same text. Exception: if a flag list names 0 and a value has unnamed bits only, the value that comes back is written differently. So whatever text such a description accepts, the value read has settled after being written and read once more; for tables of doubles by name this holds for every text without the bytes a string does not survive with (control characters without a short escape, 0xF8 to 0xFD, and \\x escapes of those).", "quantifier": "all descriptions built from the constructors of twins, all values related by them, all old values, continuations and error states without an error", "why_tests_cant": "Compositions are unbounded and the values that change are those the tests leave out.", "anchors": ["wjson/serializer/float.hpp: 25-80", "wjson/serializer/flags.hpp: 65-96", "wjson/serializer/string.hpp: 31-84", "wjson/serializer/raw_value.hpp", "wjson/serializer/array.hpp", "wjson/serializer/object.hpp", "wjson/serializer/object_array.hpp", "wjson/serializer/quoted.hpp", "wjson/serializer/pointer.hpp"]}
{"id": "C114", "title": "Floating-point values keep their order, and reading is off by half a bit at most", "statement": "Of two JSON numbers that fit the buffer, the larger one is never read as a smaller value; of two finite values, the larger one is never written as a smaller number, neither with fixed precision (below 10^18) nor in scientific notation; so values written as one floating-point type and read as another keep their order. Up to the largest finite value, the value read differs from the number by one part in 2^prec at most (prec: 24, 53 or 64 bits), or by half the smallest positive value near zero. Numbers that are values of the type are read exactly, so integers of up to prec bits are; 2^53+1 is not. The order is not strict: different values may be written alike.", "quantifier": "all formats, numbers, finite values, continuations and error states", "why_tests_cant": "Pairs of numbers and of 2^64 values cannot be enumerated; violations would sit at the boundaries of decades and binades.", "anchors": ["wjson/serializer/float.hpp: 25-54", "wjson/serializer/float.hpp: 57-80"]}
{"id": "C115", "title": "From texts in UTF-8 only UTF-8 is read and written", "statement": "Every string and every text in a char array that is read without error from a text in UTF-8, and every raw value kept of it, is itself UTF-8, wherever it stands inside the value read, unless an escape stands for half of a surrogate pair or, as \\x, for a byte from 128 on; a reading that cuts a character at a quote or at the end of a char array is reported. What is written for values in the domain of valid JSON output is UTF-8, so an exchange from UTF-8 leads to UTF-8. Surrogate pairs and \\x escapes are read as bytes that are not UTF-8, and overlong forms are read and written without an error.", "quantifier": "all descriptions (by composition), all texts in UTF-8 without such escapes, all old values", "why_tests_cant": "All code points, all positions inside nested values, all lengths of char arrays.", "anchors": ["wjson/parser.hpp: 446-480", "wjson/serializer/string.hpp", "wjson/serializer/raw_value.hpp"]}
{"id": "C116", "title": "Of the alternatives of a member_if one is always unset", "statement": "Of the two alternatives of a member_if one holds what it reads from null after any reading, with or without error, of the object or of the array of members, if one did before; a reading that comes to the member_if leaves it so whatever was there before. A text that does not come to it leaves both as they were, so a target in which both are set may keep both.", "quantifier": "all structs in which the alternatives and the other members are independent fields, all texts, old values and error states", "why_tests_cant": "All texts, valid and broken, and all states of the target; the tests read into fresh structs.", "anchors": ["wjson/serializer/object.hpp: 308-337", "wjson/serializer/object_array.hpp: 186-227"]}
