#!/usr/bin/env python3
"""Regenerates /verif/properties.jsonl (single source of the English properties)."""
import glob, json, os
P = []
def p(title, statement, quantifier, why, anchors):
    P.append(dict(id="C%02d" % (len(P)+1), title=title, statement=statement,
                  quantifier=quantifier, why_tests_cant=why, anchors=anchors))

PA = "wjson/parser.hpp"
p("Every RFC 8259 JSON value is accepted",
  "If a byte range starts with a JSON value in the sense of RFC 8259 (any whitespace between tokens, any nesting, UTF-8 strings) followed by something that cannot extend a number, parser::parse called with a clean error object returns the position just after that value and reports no error.",
  "all RFC 8259 texts of any length and nesting depth, all continuations",
  "The grammar is infinite and recursive; tests sample a handful of documents.",
  [PA+": parse, parse_value, parse_object, parse_array, parse_member, parse_string, parse_number, parse_space"])
p("parser::parse accepts exactly its documented superset of JSON",
  "parser::parse succeeds on an input if and only if the consumed prefix belongs to an explicitly written grammar: RFC 8259 JSON extended with /* */ comments, stray '/', trailing commas, '[]' and '{]' as empty objects, raw control bytes in strings and structurally (not semantically) checked UTF-8. Everything outside that grammar is rejected with an error.",
  "all byte sequences",
  "Soundness (nothing else is accepted) is a statement about all rejected inputs.",
  [PA+": parse_value, parse_object, parse_array, parse_member"])
p("Parsing always terminates",
  "parser::parse, despace and all scanning loops terminate on every byte sequence, whatever the error pointer.",
  "all byte sequences, all error pointers", "Non-termination cannot be observed by a finite run.",
  [PA+": parse_value, parse_string, despace"])
p("Parsing never reads or steps past the end of the range",
  "No call of parser::parse/despace on [beg,end) reads a byte at or beyond end or advances an iterator beyond it.",
  "all byte sequences, all error pointers",
  "An out-of-range read of one byte is usually invisible at run time (std::string keeps a NUL there).",
  [PA+": parse_array:609-611, parse_object:585-587"])
p("The returned iterator lies inside the range and only moves forward",
  "parser::parse_* return an iterator in [beg,end]; when no error is reported at least one byte of a value has been consumed.",
  "all byte sequences, all error pointers", "Holds for every input, in particular malformed ones.",
  [PA+": parse_value, parse_member, parse_string, parse_number"])
p("An error report and stopping at end coincide",
  "If a parser function called with a clean error object reports an error it returns end; if it reports none, the error object is untouched.",
  "all byte sequences", "Quantifies over all malformed inputs.",
  [PA, "wjson/error.hpp: create_error"])
p("The first error is sticky",
  "Once a json_error holds an error no parsing or deserializing call changes or clears it, for every JSON description built from the library's types.",
  "all inputs, all error objects, all descriptions (by composition)",
  "Needs every control path of every serializer.",
  ["wjson/error.hpp: create_error, json_error", PA, "wjson/serializer/*.hpp"])
p("A null error pointer does not change where the parser stops",
  "parser::parse_* return the same iterator whether called with nullptr, a clean json_error, or one already holding an error.",
  "all byte sequences, all pairs of error pointers", "Compares two runs on every input.",
  [PA, "wjson/error.hpp: create_error"])
p("The reported error position lies inside the input",
  "Whenever deserialization of [beg,end) turns a clean json_error into an error, 0 <= tail_of() <= distance(beg,end); hence strerror::where is a valid offset and strerror::trace does not form iterators outside the range.",
  "all byte sequences, all descriptions (by composition)",
  "tail_of is computed differently on dozens of error paths.",
  [PA, "wjson/strerror.hpp: where, trace, message_trace", "wjson/serializer/*.hpp"])
p("Whitespace and comments are skipped, nothing else is",
  "parse_space returns the longest-skip position: the remaining text does not start with whitespace or '/'; on input without '/' exactly the run of blanks/tabs/CR/LF is skipped; a /* */ comment whose body has no '*/' is skipped whole; an unterminated comment is an error.",
  "all byte sequences", "Comment bodies are arbitrary.",
  [PA+": parse_space:167-202"])
p("despace removes exactly the whitespace and comments outside strings",
  "For every sequence of JSON tokens with whitespace and comments between them, despace writes the concatenation of the tokens, returns end and reports no error; the result for a JSON document is accepted by the parser; applying it again changes nothing.",
  "all token sequences and separators", "Infinite family of layouts.",
  [PA+": despace:129-156"])
p("Numbers are scanned by maximal munch of the RFC 8259 grammar",
  "parse_number accepts an input iff it starts with an RFC number, and stops after the longest one; '01' stops after '0'; '1.', '1e', '-' are errors.",
  "all byte sequences", "Infinite language.",
  [PA+": parse_integer, parse_number, parse_digit"])
p("Strings are scanned exactly to the first unescaped closing quote",
  "parse_string accepts iff the input starts with a quoted sequence of complete escapes and complete UTF-8 shaped sequences, and returns the position after the first unescaped quote.",
  "all byte sequences", "Infinite language.",
  [PA+": parse_string, parse_hex, parse_utf8"])

NU = "wjson/serializer/number.hpp"
p("Integers are written as their canonical decimal numeral",
  "For every integer type and value the serializer emits the unique decimal numeral of the value (no leading zero, '-' only for negatives).",
  "all integer types (width, signedness), all values", "2^64 values per type.",
  [NU+": integer_serializer::serialize"])
p("Integer serialization never overruns its stack buffer",
  "The fixed char buf[integer_buffer_size<T>] is large enough for every value of T (8..64 bits, signed or not, including the minimum).",
  "all integer types, all values", "Overrun by one byte on a single extreme value would go unnoticed.",
  [NU+": integer_buffer_size, integer_serializer::serialize"])
p("Reading an in-range integer numeral yields its value",
  "Deserializing a JSON integer whose magnitude fits the target yields exactly that integer, consumes exactly the numeral and reports no error.",
  "all integer types, all in-range numerals, all continuations", "Infinite input space.",
  [PA+": unserialize_integer:633-659"])
p("Integers round-trip",
  "serialize then deserialize gives the same value for every value of every integer type.",
  "all integer types, all values (including the minimum)", "Extremes per type; signed overflow is undefined behaviour.",
  [NU, PA+": unserialize_integer"])
p("An integer that does not fit the target is reported as an error",
  "Deserializing a numeral outside the range of the target type (too large, or negative for an unsigned target) reports an error.",
  "all integer types, all out-of-range numerals", "Infinite input space.",
  [PA+": unserialize_integer:648-656"])
ST = "wjson/serializer/string.hpp"
p("Strings round-trip",
  "Deserializing the serialization of a std::string gives back the same bytes for every byte string.",
  "all byte strings of length < 2^31", "All byte combinations including invalid UTF-8 and control bytes.",
  [ST+": serializerS::serialize, unserialize"])
p("Serialized strings are valid JSON denoting the same text",
  "For every valid UTF-8 string the serializer emits an RFC 8259 string literal whose RFC meaning is that string; for arbitrary bytes the output is still a quoted ASCII/UTF-8 shaped literal without raw control bytes.",
  "all byte strings", "Infinite input space.",
  [ST+": serializerS::serialize, serialize_hex_"])
p("Everything serialized is accepted by parser::parse",
  "The output of every serializer (any description, any value) is accepted by parser::parse and consumed whole.",
  "all descriptions, all values", "Compositional over an infinite family of types.",
  [ST+": serialize_hex_:141-144", PA+": parse_string:414-417"])
p("\\uXXXX escapes decode to the UTF-8 encoding of the code point",
  "Reading a string literal containing \\u escapes yields the UTF-8 encoding of the escaped characters (including surrogate pairs).",
  "all code points, all escape sequences", "2^16 escapes and 2^20 pairs.",
  [ST+": unserialize_uhex_"])
p("Reading into char[N] never writes outside the array",
  "Deserializing any input into char[N] writes at most N bytes, and bytes not written are zero.",
  "all N, all byte sequences", "Arbitrary escapes near the boundary.",
  [ST+": serializerT<value<char[N]>>, unserialize, utf8_copy_, unserialize_uhex_"])
p("char[N] round-trips",
  "A char[N] holding a NUL-padded text round-trips through serialize/deserialize.",
  "all N, all contents", "Infinite.", [ST])
p("bool round-trips and rejects everything else",
  "true/false are written and read as JSON literals; any input that does not start with true, false or null is an error.",
  "all byte sequences", "Infinite input space.", ["wjson/serializer/bool.hpp"])
p("null resets the target to its default",
  "Deserializing null succeeds, consumes 4 bytes and yields the default value of the target for numbers, bool, strings, sequences, dictionaries, objects, and element-wise for fixed arrays.",
  "all descriptions, all previous target values", "All prior states.",
  ["wjson/serializer/*.hpp"])
AR="wjson/serializer/array.hpp"
p("Sequences round-trip",
  "vector/deque/list of any round-tripping element description round-trip, with arbitrary length and nesting.",
  "all element descriptions, all lengths", "Unbounded sizes and nesting.", [AR+": serializerA"])
p("Sequence deserialization yields the elements in order, ignoring whitespace",
  "For every list of element texts separated by commas and arbitrary whitespace the container receives exactly the element values in order, whatever it contained before.",
  "all element lists, all whitespace, all previous contents", "Unbounded.", [AR+": serializerA::operator()"])
p("Fixed-size arrays are never written out of bounds",
  "Deserializing into J[N]/std::array<J,N> stores at most N elements; more than N elements is an error; fewer leave the remaining elements unchanged.",
  "all N, all inputs", "Unbounded input lengths.", [AR+": serializerA< array_r< J[N] > >, serializerA< array_r< std::array > >"])
p("Fixed-size arrays round-trip",
  "J[N] and std::array<J,N> round-trip for every round-tripping element description.",
  "all N, all element values", "Unbounded.", [AR])
p("set/multiset/map/multimap round-trip and keep their invariants",
  "Deserialized associative containers are sorted and (for set/map) duplicate free whatever the input order; serializing and deserializing gives the same container; for duplicate keys in a map the first occurrence wins; equivalent elements of a multiset or multimap stand in an order determined by the text.",
  "all inputs, all contents", "Unbounded.", ["wjson/specialization/array.hpp", "wjson/specialization/dict.hpp", AR])
p("Dictionaries round-trip",
  "dict of string keys to any round-tripping value description round-trips (as association list and as map).",
  "all contents", "Unbounded.", ["wjson/serializer/field.hpp", "wjson/specialization/dict.hpp"])
OB="wjson/serializer/object.hpp"
p("Objects round-trip",
  "An object description with distinct member names over round-tripping member types round-trips every value of the struct, starting from any previous target contents.",
  "all descriptions, all struct values, all previous targets", "Unbounded composition.", [OB])
p("Object deserialization does not depend on member order",
  "For JSON objects with distinct keys, every permutation of the members (with any whitespace) deserializes to the same struct.",
  "all permutations of all objects", "n! orders.", [OB+": unserialize_members"])
p("Unknown members are skipped in nonstrict mode and rejected in strict mode",
  "nonstrict: members not in the description with arbitrary JSON values do not influence the result; strict: the presence of any unknown member is reported as an error.",
  "all objects, all unknown members at any position", "Unbounded positions and contents.", [OB+": unserialize_members"])
p("Members missing from the JSON keep their previous value",
  "Deserializing an object changes only the struct fields whose names occur in the JSON.",
  "all objects, all previous targets", "All subsets of members.", [OB])
p("Duplicate object members: last one wins",
  "If a listed member occurs several times in a JSON object the last occurrence determines the field.",
  "all objects", "All duplication patterns.", [OB+": unserialize_members:181-184,196-225"])
p("Object member names are matched as JSON strings",
  "A member name written with escapes is treated the same as the unescaped name.",
  "all names, all spellings", "Infinite spellings.", [OB+": unserialize_member_name"])
p("An unrelated member never modifies a member_if field",
  "Deserializing a member whose name differs from a member_if's name leaves both alternatives of the member_if unchanged.",
  "all objects", "Depends on order and on unknown members.", [OB+": unserialize_member(member_if)"])
p("member_if writes and reads the selected alternative",
  "member_if serializes the left alternative unless it equals its default, else the right; reading back restores the chosen alternative and resets the other.",
  "all values", "All value pairs.", [OB])
p("Objects as arrays round-trip positionally",
  "object_array descriptions round-trip; k elements set exactly the first k members, leaving the others; more elements than members is an error; the array sets what the object with the same values in list order sets.",
  "all descriptions, all values, all element counts", "Unbounded.", ["wjson/serializer/object_array.hpp"])
EN="wjson/serializer/enumerator.hpp"
p("Enumerators round-trip and reject unknown names in strict mode",
  "A listed enum value round-trips through its name; a strict enumerator reports InvalidEnum for any other name, a nonstrict one yields the default.",
  "all enum lists, all names", "Infinite names.", [EN])
FL="wjson/serializer/flags.hpp"
p("Flags round-trip",
  "Every value that is a union of listed flags round-trips, for array form and every separator form.",
  "all flag lists, all unions, all separators", "Exponential number of unions.", [FL])
TI="wjson/serializer/time_interval.hpp"
p("Time intervals round-trip",
  "time_interval_s/ms/mks round-trip every representable interval.",
  "all 64-bit values", "2^64 values.", [TI])
p("Time interval reading adds up its components",
  "Reading \"<a>d<b>h<c>m<d>s<e>ms<f>mks\" in any order yields the sum of the components in the target's unit, and a truncated or unterminated string is an error.",
  "all component lists", "Unbounded.", [TI])
SI="wjson/serializer/size_value.hpp"
p("Size values round-trip",
  "size_value<T,metric> round-trips every value whose byte count fits in 63 bits.",
  "all values, all metrics, all integer types", "2^64 values.", [SI])
p("Size value reading is memory safe for every input",
  "No JSON string makes size_value read outside its 32-byte buffer.",
  "all byte sequences", "Out-of-bounds reads are invisible.", [SI+": 80-85"])
QU="wjson/serializer/quoted.hpp"
p("Quoted values round-trip",
  "quoted<J> round-trips for every round-tripping J whose output contains no unescapable bytes, including nested quoting.",
  "all descriptions J, all values", "Unbounded nesting.", [QU+": serializerQ"])
p("Quoted deserialization rejects trailing garbage inside the quotes",
  "quoted<J> reports an error if the quoted text is not exactly one J value.",
  "all inputs", "Infinite.", [QU+": serializerQ::deserialize:106"])
p("Raw values and iterator pairs return exactly the bytes of one value",
  "raw_value/iterator_pair deserialization captures exactly the bytes of the JSON value at the current position and re-emits them unchanged.",
  "all JSON values", "Infinite.", ["wjson/serializer/raw_value.hpp", "wjson/serializer/iterator_pair.hpp"])
p("Smart pointers round-trip",
  "pointer<unique_ptr/shared_ptr, J> round-trips null and every J value whose text does not start with 'n'; malformed null literals are errors.",
  "all values, all inputs", "Infinite.", ["wjson/serializer/pointer.hpp"])
p("Serializer output does not depend on the kind of output iterator",
  "Serializing through a back_inserter and through a plain char* produce the same bytes and the same final position, for every description and value.",
  "all descriptions, all values", "Relational property over all serializers.",
  ["wjson/serializer/*.hpp", TI+": write_if_", SI+": write_if_1_", QU+": serializerRQ", "wjson/serializer/pointer.hpp:26-29"])
p("multi_deserializer returns the index of the first description that accepts",
  "The result is the number of leading descriptions that report an error, and the target of the first accepting one receives its value.",
  "all description lists, all inputs", "Unbounded lists.", ["wjson/utility/multi_deserializer.hpp"])
p("Schema lists are merged as sets in order",
  "schema::get_schema_list(v) appends exactly the names not yet present, keeps the old prefix, introduces no duplicates among new names already present, and returns true iff something was appended.",
  "all lists", "Unbounded.", ["wjson/schema.hpp: get_schema_list"])
p("create_schema(obj,names) uses the first requested name that exists",
  "The first requested name that is in the schema list is used; if none is, the last requested name.",
  "all lists of names", "Unbounded.", ["wjson/schema.hpp: create_schema"])
p("Both create_schema overloads agree",
  "create_schema<T>(name) returns the same object create_schema<T>(obj,name) stores.",
  "all kinds of T", "Depends on which of 4 detected forms exist.", ["wjson/schema.hpp: create_schema:122-134"])
p("strerror reports faithfully",
  "what() returns the text of the error code; where() is the offset distance-tail_of; trace() is the input with a marker inserted at that offset (deleting it restores the input).",
  "all errors, all inputs", "Infinite.", ["wjson/strerror.hpp"])
p("The _json literal only replaces apostrophes",
  "operator\"\"_json preserves length and every byte except ' which becomes \".",
  "all byte strings", "Infinite.", ["wjson/_json.hpp"])
p("Deserialization of any description terminates and stays in range",
  "For every description built from the library's types, deserialization of any input terminates and returns an iterator in [beg,end].",
  "all descriptions (by composition), all inputs", "Infinite.", ["wjson/serializer/*.hpp"])
p("strerror::where is the offset of the first offending byte",
  "For every rejected document where() points at the byte that makes the text invalid.",
  "all rejected inputs", "Infinite.", [PA+": parse_null:254, parse_integer:357", "wjson/strerror.hpp: where"])
p("Floating-point numbers are read at full length",
  "Reading a floating-point value uses the whole number token that is consumed.",
  "all number tokens", "Unbounded token length.", ["wjson/serializer/float.hpp: 73-79"])
p("Serialized floating-point values are JSON numbers",
  "The text written for a floating-point value is exactly the text the stream formats and is a JSON number.",
  "all precisions, all formatted texts", "Unbounded texts; the failing lengths depend on the precision.", ["wjson/serializer/float.hpp: 22-54"])
p("Floating-point values survive a round trip",
  "If the stream reads back the text it formats, then reading the serialized value gives it back, consuming exactly the output.",
  "all values, all precisions, any correct text conversion", "Depends on the length of the text.", ["wjson/serializer/float.hpp"])
p("Every composition survives a round trip",
  "For every description composed of the library's types, reading what was written gives back the value, consuming exactly the output, whatever the target contained and whatever follows.",
  "all descriptions (by composition), all values in their domains", "Infinite family of types.", ["wjson/serializer/*.hpp"])
p("Unordered containers keep exactly the elements read",
  "For every hash table satisfying the C++ container requirements: unordered_set/map hold each key once with its first occurrence, unordered_multiset/multimap hold all elements, null empties them, and writing then reading gives the same elements up to order.",
  "all hash tables, all element descriptions, all element lists", "Iteration order is unspecified, so tests see only one of the possible orders.", ["wjson/specialization/array.hpp: 129-152", "wjson/specialization/dict.hpp: 166-196"])
p("Reading does not depend on the error record",
  "For every description the value read and the iterator returned are the same without a json_error, with a clean one and with one that already holds an error; two clean records receive the same report.",
  "all descriptions (by composition), all inputs, all error records", "Pairs of runs over all inputs.", ["wjson/error.hpp: 39-56", "wjson/serializer/*.hpp"])
p("A reported error leaves the iterator at the end",
  "For every description, a call that reports an error returns end.",
  "all descriptions (by composition), all inputs", "Infinite; the violating inputs (bad escapes) are rarely tried.", ["wjson/error.hpp: 39-56", "wjson/serializer/*.hpp"])
p("The value read belongs to the target's type",
  "Whatever bytes are read, with or without an error and however often into the same target: integers stay in their range, enumerators are 0 or a listed value, flags are unions of listed values, sets and maps stay sorted, fixed buffers keep their length, and struct invariants over the members are kept.",
  "all descriptions (by composition), all byte strings, all histories of calls", "Infinite; the interesting inputs are malformed.", ["wjson/serializer/*.hpp", "wjson/specialization/*.hpp"])
p("Reading and writing once is stable",
  "Whatever text is read, the text written for the result reads back as the same value and is reproduced by writing it again; it is JSON when all values of the type have JSON outputs. For strings, enumerators, raw values, times and sizes, whose types hold values that do not survive, the same for what was read without error from texts without control characters.",
  "all descriptions whose whole type survives a round trip, all byte strings; further descriptions and all texts read without error", "Infinite.", ["wjson/serializer/*.hpp"])
p("A typed read that succeeds consumed a document",
  "If reading through a description reports no error, the consumed text is a value of the language parser::parse recognises, so validating it finds nothing wrong; texts that are no JSON are reported.",
  "all descriptions (by composition), all byte strings, all old values", "Infinite; validators and readers are separate code and are compared on a few inputs only.", [PA+": parse", "wjson/serializer/*.hpp"])
p("Containers report exactly what is wrong and keep what was read",
  "Reading arrays, dictionaries and fixed-size arrays: for a wrong opening bracket, a missing separator or colon, surplus elements, a truncated text and a failing element, at any depth of nesting, the error code, the expected text and the position are determined, and the target holds exactly the elements read up to that place.",
  "all element descriptions, all well-formed prefixes with any gaps, all continuations, all old values", "Every failing position of every nesting; tests look at the code of a few errors only.", ["wjson/serializer/array.hpp: 44-88, 114-267", "wjson/serializer/field.hpp: 16-49"])
p("Structs report exactly what is wrong and keep what was read",
  "Reading objects and object arrays: a missing separator, colon or name, an unlisted member of a strict struct (the first one), a truncated text and a failing member value are reported with a fixed code, expected text and position, and the struct holds exactly what the members before that place stored.",
  "all member lists with distinct names, all well-formed prefixes in any order, all continuations, all old values", "Every failing position of every member order.", ["wjson/serializer/object.hpp: 31-243", "wjson/serializer/object_array.hpp: 32-227"])
p("Values report exactly what is wrong, wrappers pass it on",
  "Integers, booleans and strings report the position of the offending byte and what is left in the target; member_value, pointers and optional quoting report what their value reports.",
  "all integer types, all texts of the failing shapes, all wrapped descriptions", "All prefixes and continuations.", [PA+": unserialize_integer", "wjson/serializer/bool.hpp: 20-62", "wjson/serializer/string.hpp: 86-128", "wjson/serializer/pointer.hpp"])
p("Builds without libstdc++ write floating-point numbers whole",
  "Without __GLIBCXX__ the text of a number is written unchanged, whatever its length; with it the output is the beginning of that text, at most bufsize characters, and the two agree exactly on the numbers that fit. The shared reader gives back the numbers that fit in either build.",
  "all formatting functions, all precisions, all values", "Only one of the branches is compiled in any test run.", ["wjson/serializer/float.hpp: 22-80"])
p("Gaps between tokens do not influence a typed read",
  "Two texts that consist of the same tokens, with any whitespace and comments between them, are read alike by a typed read: both give the same value and stop in front of the same rest, or both report an error and leave the same value. So running parser::despace first changes nothing.",
  "all descriptions (by composition), all token sequences, well-formed or not, all gaps, all old values", "Infinite: every gap at every place of every description.", ["wjson/parser.hpp: parse_space", "wjson/serializer/*.hpp"])
p("Strings are read exactly from their literals",
  "Reading std::string, std::vector<char> or char[N] succeeds exactly for null and for literals made of plain bytes, UTF-8 characters, the eight short escapes, \\uXXXX and \\xHH (for char arrays: that fit), and stores exactly their decoding; everything else reports an error.",
  "all byte strings, all array sizes, all old values", "Infinite; both directions over all inputs.", ["wjson/serializer/string.hpp: 86-370"])
p("Numbers and enumerators are read exactly from their tokens",
  "Reading an integer, floating-point number or enumerator succeeds exactly for null (numbers only) and for the texts of the respective token grammar; the value stored and the place where reading stops are determined by that token.",
  "all integer types, all text conversions, all enumerations, all byte strings, all old values", "Infinite; both directions over all inputs.", [PA+": 632-659", "wjson/serializer/number.hpp: 102-123", "wjson/serializer/float.hpp: 56-80", "wjson/serializer/enumerator.hpp: 31-101"])
p("Containers are read exactly from element lists",
  "Reading an array, dictionary or fixed-size array succeeds exactly for null and for bracketed lists of texts the element reads, separated by commas and gaps; the container then holds exactly the elements read, in the order and with the multiplicity its inserter gives them.",
  "all element descriptions, all containers, all byte strings, all old values", "Infinite; both directions over all inputs.", ["wjson/serializer/array.hpp: 44-88, 114-267", "wjson/serializer/field.hpp: 16-49"])
p("Structs are read exactly from member lists",
  "Reading an object or object array succeeds exactly for null, for an empty object or array, and for braces around members (elements) whose values the listed members read; which member a name goes to, what is skipped, where a trailing comma is accepted and what the struct holds afterwards is determined by one small relation.",
  "all member lists without member_if, all names without quotes and backslashes, both modes, all byte strings, all old values", "Infinite; both directions over all inputs and member orders.", ["wjson/serializer/object.hpp: 31-306", "wjson/serializer/object_array.hpp: 32-227"])
p("Wrappers are read exactly from what they wrap",
  "Reading a bool, pointer, quoted, raw_quoted, raw_value or member_value succeeds exactly for the texts given by the wrapped description (or the JSON language) and stores exactly the corresponding value.",
  "all wrapped descriptions, all byte strings, all old values", "Infinite; both directions over all inputs.", ["wjson/serializer/bool.hpp: 20-62", "wjson/serializer/pointer.hpp: 33-67", "wjson/serializer/quoted.hpp: 30-121", "wjson/serializer/raw_value.hpp", "wjson/serializer/member_value.hpp"])
p("Times and sizes are read exactly from sums and multiples",
  "Reading a time_interval succeeds exactly for integers, null and quoted sums of numbers with units, a size_value exactly for integers, null and literals with one number and an optional unit; the value stored is given by the arithmetic of the C++ type, and nothing is read where that arithmetic overflows.",
  "all integer types, all fractions and metrics, all byte strings", "Infinite; both directions over all inputs.", ["wjson/serializer/time_interval.hpp: 46-110", "wjson/serializer/size_value.hpp: 59-120"])
p("What the parser reports is determined by the text",
  "A text that is no JSON value makes parser::parse fail in exactly one way, described by a grammar of failures over the text: the code, the expected text and the distance of the position from the end, or reading *end where that is impossible. The same holds for every parse_* function called directly.",
  "all byte strings, all bytes at *end, all error objects", "Infinite: every malformed text, both directions.", [PA+": 158-623"])
p("What typed readers refuse, report and leave behind",
  "Reading a string, char array, integer, bool, floating-point number or enumerator fails exactly for the texts given by a small grammar of failures, which also determines the error code, the expected text, the position, the value left in the target and the rest returned (not the end after a bad hexadecimal digit); every read succeeds, fails in this sense or is undefined behaviour.",
  "all byte strings, all old values, all integer types, array sizes, enumerator lists and modes", "Infinite: every malformed text, both directions.",
  ["wjson/serializer/string.hpp: 86-370", PA+": 632-659", "wjson/serializer/number.hpp: 102-123", "wjson/serializer/bool.hpp: 20-62", "wjson/serializer/float.hpp: 56-80", "wjson/serializer/enumerator.hpp: 31-101"])
p("What wrappers, times and sizes refuse, report and leave behind",
  "Reading a pointer, quoted value, raw value, raw_quoted value, member_value, time_interval or size_value fails exactly when the wrapped description or one of the wrapper's own rules does; report, target and rest returned follow from the failure of the wrapped description.",
  "all wrapped descriptions, all byte strings, all old values, all fractions and metrics", "Infinite: every malformed text, both directions.",
  ["wjson/serializer/pointer.hpp: 33-67", "wjson/serializer/quoted.hpp: 30-121", "wjson/serializer/raw_value.hpp", "wjson/serializer/member_value.hpp", "wjson/serializer/time_interval.hpp: 46-110", "wjson/serializer/size_value.hpp: 59-120"])
p("Times are written canonically",
  "A time_interval is written as days, hours, minutes and seconds of one sign (hours below 24, minutes and seconds below 60, zero parts left out), followed by milli- and microseconds below 1000; this determines the text. Negative values do not: microseconds lose their fraction of a second, and milliseconds get a huge positive number of microseconds instead of the fraction.",
  "all integer types, all values in the domain of C44, all negative values", "Infinite; exact text for every value.", ["wjson/serializer/time_interval.hpp: 21-44, 114-123"])
p("Sizes are written in the largest unit that divides them",
  "A size_value is written in the largest unit the type can hold that divides the number of bytes, decimal before binary if the metric is decimal and binary before decimal otherwise; zero in the unit of the metric; as a plain number if no unit fits. This determines the text; more than 2^63 bytes are undefined behaviour.",
  "all integer types, all metrics, all values", "Infinite; exact text for every value.", ["wjson/serializer/size_value.hpp: 23-57, 124-154"])
p("Flags are read exactly from lists and separated words",
  "Reading flags from an array of names or from a string of separated names is determined by the text: which names set their flag, what is skipped (unknown names when not strict), which missing or repeated separators are accepted, where reading stops; and for every other text the error code, its position and the union of the flags read before it. Two spaces lose the name behind them if the separator is a space.",
  "all lists of distinct names without quotes, spaces, slashes and the separator, all separators, both modes, all byte strings, all old values", "Infinite; both directions over all inputs.", ["wjson/serializer/flags.hpp: 30-233"])
p("Every outcome of reading a container is determined",
  "For arrays, dictionaries, their members and fixed-size arrays one small relation gives, for every text and every error record passed in, all that reading can lead to: the elements stored, the rest returned and the error record left, whether reading succeeds, fails, or goes on behind an error already reported. The outcome of an element is taken from its own description, so the relation composes over nesting.",
  "all element descriptions, all containers, all array sizes, all byte strings, all error records, all old values", "Infinite; both directions over all inputs, including reads with an error already set.", ["wjson/serializer/array.hpp: 44-88, 114-267", "wjson/serializer/field.hpp: 16-49"])
p("Every outcome of reading a struct is determined",
  "For objects and object arrays, with members, properties and member_if alternatives, one small relation gives, for every text and every error record passed in, the struct left, the rest returned and the error record left: which member a name goes to, what a cut-off or wrong name does, which alternative of a member_if is taken and what the other one is reset to, what is skipped, what strict structs report.",
  "all member lists with names without quotes and backslashes, both modes, all byte strings, all bytes at *end, all error records, all old values", "Infinite; both directions over all inputs, including reads with an error already set.", ["wjson/serializer/object.hpp: 31-337", "wjson/serializer/object_array.hpp: 32-227"])
p("What a read stores does not depend on what the target held before",
  "Reading any value, container, dictionary, quoted value or pointer from an accepted text gives the same value and rest whatever the target and the uninitialised locals of the container loops held. Except for floating-point numbers, quotes and dictionary members this also holds for refused texts: stored value, report and rest are the same. A refused floating-point or quoted element however is inserted as whatever the local contained, and structs and fixed-size arrays keep what the text does not mention.",
  "all descriptions built from values, containers, dictionaries, quotes and pointers, all byte strings, all old values and local contents", "Indeterminate contents cannot be enumerated by a test.",
  ["wjson/serializer/array.hpp: 46-89", "wjson/serializer/field.hpp: 35-48", "wjson/serializer/pointer.hpp: 33-67", "wjson/serializer/quoted.hpp: 61-121", "wjson/serializer/float.hpp: 56-80"])
p("Exactly which integers and strings survive a round trip",
  "A string (char array) is given back by writing and reading it exactly if it contains no control character without short escape and no five- or six-byte character (and, for char arrays, only zeros behind the first zero). Control characters come back as the text of their escape sequence, and a second round trip changes nothing; the first five- or six-byte character is refused with a report that points at it. An integer is given back unless it is the smallest one of int or a wider signed type, whose text is undefined behaviour to read.",
  "all byte strings, all array sizes, all integer types, all values", "Infinite; both directions over all values.",
  ["wjson/serializer/string.hpp: 31-84, 86-370", "wjson/serializer/number.hpp", PA+": 632-659"])
p("Reading looks at most one byte behind a value",
  "If a value is read from a text, it is read in the same way whatever follows the first byte behind it. Containers, structs, strings, quoted values, booleans and enumerators tell where they end: they are read in the same way whatever follows, and none of their proper prefixes is accepted. Numbers, pointers and times do not: a prefix of theirs may be accepted.",
  "all descriptions without floating-point numbers, flags and member_if, all accepted texts, all continuations, all bytes at *end", "Quantifies over all pairs of texts with a common beginning.",
  ["wjson/serializer/array.hpp", "wjson/serializer/object.hpp", "wjson/serializer/string.hpp", "wjson/serializer/number.hpp", "wjson/serializer/time_interval.hpp: 46-110", "wjson/serializer/pointer.hpp: 33-67", PA])

p("Exactly which time intervals survive a round trip",
  "A time interval in milliseconds is given back by writing and reading it exactly if its fraction of a second is zero, or positive and the value an int64_t, or 1 or 2 ms in an int, or one of 35 listed fractions in a short. In unsigned types every fraction is lost, and negative fractions are lost in every type. A time interval in microseconds is given back exactly if it is not negative or a whole number of seconds. int64_t is the only type in which milliseconds lose no duration.",
  "all integer types that can hold 1000 (1000000), all values, all old values", "2^64 values; both directions.",
  ["wjson/serializer/time_interval.hpp: 21-125"])

p("Exactly which sizes survive a round trip",
  "A size is given back by writing and reading it exactly if its byte count, the value times the metric, fits in int64_t, or if it is a uint64_t v from 2^63 on for which 2^64 - (2^64 - v) * metric is at least 2^63 and divisible neither by 1000 nor by 1024, so that no unit is written. Bytes in a signed type always survive; bytes from 2^63 on survive exactly if neither 1000 nor 1024 divides them.",
  "all integer types of 2, 4 and 8 bytes, all metrics below 2^63, all values, all old values", "2^64 values times 2^63 metrics; both directions.",
  ["wjson/serializer/size_value.hpp: 17-155"])

p("Exactly when reading is undefined behaviour",
  "Reading an integer is undefined exactly if the type is signed, of int or wider, and the numeral exceeds its maximum in absolute value. A time is undefined exactly if a number or the sum so far overflows or the text ends in \"mk\"; a size exactly if its 32-byte buffer has no zero, or its number or its byte count overflows. With an error already reported a time depends on its first number only and a size is undefined only as a bare number. A container, dictionary, fixed array, struct or struct as an array is undefined exactly if an element or member whose reading is undefined is reached through the ones before it, if a skipped value ends in a gap behind a bracket or a comma, or if a struct text is an opening square bracket and a gap and the byte behind the text may not be read or is a closing bracket. Pointers, quoted and raw values add nothing of their own. Strings, character arrays, booleans, enumerators, flags with at least one name and floating-point numbers are never undefined, whatever stands behind the text.",
  "all texts, all old values, no error or any reported error at the start, all element types that obey the reader laws", "Undefined behaviour need not show in a test; the statement is about every text, in both directions.",
  ["wjson/serializer/number.hpp", "wjson/serializer/time_interval.hpp: 46-110", "wjson/serializer/size_value.hpp: 59-122", "wjson/serializer/array.hpp", "wjson/serializer/object.hpp", "wjson/serializer/object_array.hpp", "wjson/serializer/quoted.hpp: 30-121", "wjson/serializer/pointer.hpp"])

p("Different values are written differently",
  "No two different values of a description are written as the same text, and the text of one is no beginning of the text of the other up to a byte that cannot continue a number. This holds for every integer including the minimum, for strings of any bytes including those that are not read back, for everything that survives a round trip, and for containers, dictionaries, structs, quoted values and pointers made of these. It fails for values an enumerator does not list, an empty raw value, pointers to pointers, negative microseconds and structs with member_if.",
  "all descriptions built from these types, all pairs of values, all continuations", "Quantifies over pairs of values of unbounded types; the values that collide are few.",
  ["wjson/serializer/string.hpp: 31-154", "wjson/serializer/number.hpp", "wjson/serializer/array.hpp", "wjson/serializer/field.hpp", "wjson/serializer/object.hpp: 22-139", "wjson/serializer/object_array.hpp", "wjson/serializer/quoted.hpp: 82-95", "wjson/serializer/pointer.hpp: 19-31"])

p("What is written is compact",
  "The text written for a value contains no whitespace and no comments between its tokens: it is JSON by the grammar of RFC 8259 with every optional whitespace left out. despace leaves such texts unchanged and turns every JSON text, with whitespace and comments around it, into one; the compact texts are exactly the JSON texts it leaves unchanged. Raw values are the exception: they are written with the spaces they contain.",
  "all descriptions whose output is JSON (raw values: compact ones), all values, all JSON texts", "Quantifies over all descriptions and values, and over all JSON texts in both directions.",
  ["wjson/serializer/array.hpp", "wjson/serializer/field.hpp", "wjson/serializer/object.hpp: 22-139", "wjson/serializer/object_array.hpp", "wjson/serializer/flags.hpp", "wjson/parser.hpp", "wjson/serializer/raw_value.hpp: 16-44"])

p("Texts written through one type are read through another",
  "A text written through one description is read through another as expected. Any array-like container is read as a vector of what its elements become, as a set (sorted, the first of equivalent elements), a multiset (sorted, all of them) or a fixed array (the first N, the rest kept); dictionaries likewise. A value can become a pointer and a pointer its value; an empty pointer becomes the empty value. An integer stays the same in a type that has it and wraps modulo 2^bits without any error in a short or unsigned type that does not. Enumerators are read as strings, anything as a raw value and raw values as anything that reads their text; strings and character arrays can be exchanged. A struct is read as another struct: members of the same name are handed over, every other part of the target stays as it was, and a nonstrict reader leaves out the members it does not know; it is also read as a dictionary of its members. A strict reader refuses the extra members, a signed type of int or wider overflows, and a short character array refuses the text.",
  "all pairs of descriptions of these kinds, all values, all old contents of the target", "Tests read what the same type wrote; here the pairs of types, structs and values are unbounded.",
  ["wjson/serializer/array.hpp", "wjson/specialization/dict.hpp", "wjson/serializer/field.hpp", "wjson/serializer/object.hpp", "wjson/serializer/pointer.hpp", "wjson/serializer/number.hpp", "wjson/serializer/enumerator.hpp", "wjson/serializer/raw_value.hpp", "wjson/serializer/string.hpp"])

p("A value can be read later from the text a raw value has kept",
  "When a raw value has kept the text t of a JSON value, reading t afterwards through another description gives the same value as reading through that description at once, and is refused exactly when that would have been. Conversely, whatever a description reads as an element or a member (unless the text contains an escape or a character only the string reader accepts), a raw value keeps. Hence an array or dictionary of raw values whose elements are read later gives the container read at once and vice versa, and every text a struct reads is read by the same struct with raw members, whose kept texts give the same members later. The last one has no converse: when a member is given twice, only the last text is kept, but the typed struct must read both.",
  "all texts, all descriptions without floats, flags, member_if and unordered containers (the kind of container is arbitrary), all structs with any of their members replaced", "Deferring is used for requests whose parameters are dispatched on their method; the texts and types are unbounded.",
  ["wjson/serializer/raw_value.hpp", "wjson/serializer/array.hpp", "wjson/serializer/field.hpp", "wjson/serializer/object.hpp", "wjson/parser.hpp"])

p("Each recogniser of the parser accepts exactly its part of the grammar, and the predicates choose it",
  "Called on their own, parse_null, parse_bool, parse_integer, parse_hex, parse_utf8, parse_array, parse_object and parse_member succeed exactly on a beginning of the text that belongs to their part of the grammar, and stop behind it. parse_object also accepts an empty array, with or without a gap inside. In front of a JSON value is_null, is_bool, is_number, is_string, is_array and is_object hold exactly for the values of their kind; every value has a kind and only an empty array has two. On other texts they prove nothing, since they look at the first byte only. is_space sees every gap parse_space skips except one that starts with a lone slash.",
  "all texts, all values, all continuations, any byte behind the text", "Each recogniser has infinitely many accepted and refused texts; the library's tests call a few of them on a handful of texts.",
  ["wjson/parser.hpp"])

p("The parsing loop of example17 recognises arrays and prints their strings",
  "show_parse succeeds exactly on a text that begins with an optional gap and an array: elements separated by commas and gaps, a comma allowed before the closing bracket. It prints the strings among the elements, in order, and returns what follows the bracket. It ends on every text, returns a position inside it, and returns the end whenever it reports an error. The strings of an array the library has written are printed unchanged. When it fails, the report and the strings printed before it are determined by where the text stops being an array: at its end, at a bad string or other element, at a missing separator, inside a comment, or before the opening bracket. It needs a json_error, and it reads the byte behind the text exactly if the text ends in a gap inside the array, in an open comment there, or in an element whose parser reads it.",
  "all texts, any byte or none behind the text, all lists of strings", "The loop has been tried on one text; the accepted and refused texts are infinitely many.",
  ["examples/example17.cpp: 5-50", "wjson/parser.hpp", "wjson/serializer/string.hpp"])

p("What the dispatching programs of example11 and example16 print",
  "Given an array, example11 prints the array in which each number is replaced by its integer part plus one, each string by a string of the int at its beginning (zero if there is none) plus one, each array of ints by itself, and everything else by null. example16 keeps null, replaces a boolean by true, negates the integer part of a number, reverses the bytes of a string and the elements of an array of at least two ints, and drops objects. In particular an array of ints is mapped to the incremented, or negated, array. An inner array of fewer than two ints makes example16 undefined, INT_MAX makes example11 undefined, and the output promised by the comment in example11 is not the one it produces.",
  "all array texts, all elements of these kinds, all lists of ints", "End-to-end statement over all inputs; the programs run on one built-in text each.",
  ["examples/example11.cpp: 5-58", "examples/example16.cpp: 6-70", "wjson/parser.hpp", "wjson/serializer/raw_value.hpp", "wjson/serializer/array.hpp"])

p("Containers differ only in how they store what they read",
  "Given the same text, sets, multisets, unordered sets and multisets and the dictionaries over them stop where a vector stops, report the same error, and are undefined when it is. When a vector holds the elements l afterwards, even after an error, a set holds the first of each class of equivalent elements of l in order, a multiset all of l in the order its insertion hints give, an unordered container the first of each class or all of l in some order. Whatever a fixed array reads a vector reads as at most N elements, which the array stores in front of its old ones; conversely it reads every vector text of fewer than N elements. It refuses a comma followed by a gap behind the Nth.",
  "all texts, element descriptions, orders, equalities, hash tables, old contents and incoming error states", "The texts, element types and orders are unbounded, and the agreement also holds on refused texts.",
  ["wjson/serializer/array.hpp", "wjson/specialization/array.hpp", "wjson/specialization/dict.hpp", "wjson/serializer/field.hpp"])

p("How long written texts are, and how far a serializer reaches into a buffer",
  "The length of a written text lies between two bounds computed from the value. They coincide for integers (their digits and sign), booleans, raw values and whatever is built of them: a container needs two brackets, its elements and a comma between neighbours, a member its name and three bytes more. A string of n bytes needs n+2 to 6n+2, both attained for every n; an integer at most the longest numeral of its type, which is attained; enumerators and flags what their names need; floating-point numbers the buffer; sizes 25 and times six numerals and 11 bytes. A serializer writing through a char* changes no byte in front of it and none at or behind the upper bound, so that a buffer of that size is enough. An empty pointer needs one byte more than its text.",
  "all descriptions of this library, all values in their types, all buffers", "The size of a buffer is safe only if it is for every value; tests see a few lengths.",
  ["wjson/serializer/string.hpp: 31-154", "wjson/serializer/number.hpp", "wjson/serializer/float.hpp", "wjson/serializer/array.hpp", "wjson/serializer/field.hpp", "wjson/serializer/object.hpp: 22-139", "wjson/serializer/object_array.hpp", "wjson/serializer/pointer.hpp: 19-31", "wjson/serializer/time_interval.hpp", "wjson/serializer/size_value.hpp", "wjson/serializer/flags.hpp"])

p("What is written denotes the document that describes the value, and no other",
  "A JSON text denotes a document: null, a boolean, an integer or other number, a string of characters after unescaping, an array of documents, an object of named documents. Every JSON text denotes at most one. The text written for a value is JSON and denotes the document its description assigns to it: an integer its number, a string its characters, a container the array of its elements' documents in order, a dictionary or struct the object of its keys or member names, a conditional member the alternative it selects, an empty pointer null, a quoted value the string whose text denotes the value, flags the array or joined string of the names that are set. So two values with different documents never produce texts that denote the same one.",
  "all descriptions in says, all values in their domains", "Values and texts are unbounded; tests compare texts with expected texts, not with what a conforming reader would make of them.",
  ["wjson/serializer/string.hpp", "wjson/serializer/array.hpp", "wjson/serializer/object.hpp", "wjson/serializer/object_array.hpp", "wjson/serializer/quoted.hpp", "wjson/serializer/pointer.hpp", "wjson/serializer/enumerator.hpp"])

p("Every spelling of a document is read as that document says",
  "Take a document and any JSON text that denotes it: any gaps that are white space, any escapes in strings that are no surrogate pairs and no escaped controls without a short form, names without escapes, any order of members, unknown members in non-strict mode. Each description reads it as the function the document stands for: the value of an integer or string, the elements of a container (ordered and merged for sets and maps), the members of a struct applied in turn to the old value, nothing for null. Together with the previous property, a written text may be rewritten by any conforming tool and is still read as the value it was written for. Surrogate pairs, escaped control characters, escaped member names and escaped enumerators are read as something else.",
  "all documents, all their spellings, all descriptions in sees, all old values and continuations", "Every document has infinitely many spellings.",
  ["wjson/parser.hpp", "wjson/serializer/string.hpp", "wjson/serializer/array.hpp", "wjson/serializer/object.hpp", "wjson/serializer/object_array.hpp", "wjson/serializer/quoted.hpp", "wjson/serializer/pointer.hpp", "wjson/serializer/enumerator.hpp"])

p("Values one after another are read in turn, also from a log that was torn",
  "Values written one after another with whitespace in between are read back in turn by the usual loop: skip a gap, stop at the end, read, go on behind. Strings, containers, structs and other values that tell where they end need nothing in between. The loop ends, and it gives a list without an error exactly if the text consists of gaps and values read as that list. If a log is torn at any byte, the loop gives exactly the records that lie entirely in front of the tear; it reports an error exactly if something other than a gap is left, so a record is never lost, invented or read in part. A text that is cut short is not the worse for it: reading it is undefined only if reading the whole is, and a reader that stops in front of the cut would have stopped there, with the same value, whatever followed. Only time_interval is worse off: a text cut behind \"mk\" makes it step over the end.",
  "all descriptions in cuttable and tight, all lists of values, separators, logs and points at which they are torn", "Logs, crash points and fragment boundaries are unbounded; a torn record might be taken for a complete one at just one of them.",
  ["wjson/parser.hpp: parse_space", "wjson/serializer/array.hpp", "wjson/serializer/object.hpp", "wjson/serializer/object_array.hpp", "wjson/serializer/string.hpp", "wjson/serializer/number.hpp", "wjson/serializer/enumerator.hpp", "wjson/serializer/quoted.hpp", "wjson/serializer/raw_value.hpp", "wjson/serializer/size_value.hpp", "wjson/serializer/time_interval.hpp"])

p("Parsing recurses exactly as deep as the text nests",
  "Every value the parser takes has one nesting depth: the number of brackets with something in them that lie inside one another. Parsing it calls parse_value one level deeper than that and not deeper, whatever follows the value; long arrays, objects, strings and numbers take no further level. Of any text at all, also refused or cut short, one level more than its opening brackets is enough. No fixed number of levels is enough for all texts: a text of 2n+2 bytes needs more than n, so a hostile text of a few hundred kilobytes can exhaust the stack, here and wherever a value of no interest is skipped.",
  "all texts, all byte values behind their end, all numbers of levels", "Depth is unbounded; tests nest two or three levels.",
  ["wjson/parser.hpp: 533-623"])

p("What is read holds no more than the bytes it was read from",
  "Count in a value the bytes of its strings and raw values and the elements of its containers; numbers, booleans, enumerators, flags, char arrays and times are of fixed size and count nothing. Whatever the text, accepted, refused or cut short: what the value holds after reading, together with the bytes left of the text, is no more than it held before, together with the text. Read into a new value, there is at most one byte or element for each byte consumed, so no short text makes a reader allocate much. What an alternative of a member_if has taken before it failed is given back. Strings and containers are cleared first, their old contents do not count. Fixed-size arrays of raw values are the exception: a null, or any text that begins with an n, is handed to each of the N elements and each keeps its own copy.",
  "all descriptions in weighs, all texts, old values, error states and bytes behind the end", "The claim is about the worst text, which tests do not know.",
  ["wjson/serializer/string.hpp: 86-283", "wjson/serializer/array.hpp", "wjson/serializer/field.hpp", "wjson/serializer/object.hpp", "wjson/serializer/object_array.hpp", "wjson/serializer/quoted.hpp", "wjson/serializer/raw_value.hpp", "wjson/serializer/pointer.hpp", "wjson/specialization/array.hpp", "wjson/specialization/dict.hpp"])

p("A number is read as the nearest floating-point value",
  "A JSON number stands for a rational number, and only one. If its text fits the buffer of the deserializer (20 characters, or 20 and the precision), float, double and long double are set to the value of the type nearest to it, of two equally near ones to the even one, with the sign of the text (also of zero); what is too large becomes the largest finite value, what is too small a subnormal value or zero. There is exactly one such value. The number is consumed entirely and no error is reported. A longer number is cut before it is converted and may be read as one a thousand times smaller, without an error. Cut between the exponent mark and its digits it is read as 0. null is 0, and whatever is read, broken texts included, the value stays finite. Nothing else is read without an error: what is taken, if it fits the buffer and no digit follows, is null or a JSON number with its nearest value, whatever follows it. A digit behind a zero is left in the text, but the value depends on it and on the digits after it (012 reads as 12).",
  "all formats of 2 to 64 bits of precision and exponents up to those of long double, all JSON numbers that fit, all precisions, old values, continuations and error states", "There are infinitely many numbers, and ties and the edges of the range are rare among those one thinks of.",
  ["wjson/serializer/float.hpp: 57-80"])

p("Fixed precision: what is written, and what comes back",
  "A finite value of at most 18 digits in front of the point is written with exactly R digits behind it, as a number that is at most half a unit of the last digit away, with its sign. Reading this text and writing the value read gives the same text, so values settle after one exchange. Values with at most R decimal digits come back unchanged, and so do values whose neighbours are further away than two units of the last digit. The other way round, a decimal text of R digits behind the point that stands for fewer than 2^(precision-1) units of its last digit is read and written unchanged: for double, any 15 digits. One third does not come back, and 1e22 written with two digits comes back as 1e21.",
  "all formats, precisions R, finite values up to 10^18-1 and decimal texts", "Rounding twice is where conversions go wrong, for a few values in 2^64.",
  ["wjson/serializer/float.hpp: 25-54", "wjson/serializer/float.hpp: 57-80"])

p("Scientific notation: what is written, and what comes back",
  "Any finite value is written in at most 15 characters with one digit before the point, not 0 unless the value is, and six behind it. The text stands for a number within half a unit of the seventh digit, relative error at most 1/2000000, and has the sign of the value, also of zero. For double and long double, reading this text and writing the value read gives the same text, subnormal values included; for float it does not: one value near 1e28 is written 1.000000e+28, which is read as a value that is written 9.999999e+27. Values of at most seven significant decimal digits come back unchanged, others, like one third, do not.",
  "all formats and finite values; double and long double where the text comes back", "2^64 and 2^80 values; the exception for float occurs at one power of ten.",
  ["wjson/serializer/float.hpp: 25-54", "wjson/serializer/float.hpp: 57-80"])

p("What does not come back as it was settles after one exchange, inside any description",
  "Some values are not read back as they were written: floating-point values (rounded to R decimals or to seven digits), flags with bits that have no name, char arrays with bytes behind the end of their text, empty raw values. For each there is exactly one value it comes back as, said without the code: the value of the type nearest to the rounded decimal number, the named bits, the text padded with zeros, the two quotes. In any composition of these and all other types into containers, dictionaries, fixed arrays, structs (as objects and as arrays), quoted values and pointers, a value whose parts have such partners is written, read back as the value made of the partners, and the partner is written as the same text. Exception: if a flag list names 0 and a value has unnamed bits only, the value that comes back is written differently. So whatever text such a description accepts, the value read has settled after being written and read once more; for tables of doubles by name this holds for every text without the bytes a string does not survive with (control characters without a short escape, 0xF8 to 0xFD, and \\x escapes of those).",
  "all descriptions built from the constructors of twins, all values related by them, all old values, continuations and error states without an error", "Compositions are unbounded and the values that change are those the tests leave out.",
  ["wjson/serializer/float.hpp: 25-80", "wjson/serializer/flags.hpp: 65-96", "wjson/serializer/string.hpp: 31-84", "wjson/serializer/raw_value.hpp", "wjson/serializer/array.hpp", "wjson/serializer/object.hpp", "wjson/serializer/object_array.hpp", "wjson/serializer/quoted.hpp", "wjson/serializer/pointer.hpp"])

p("Floating-point values keep their order, and reading is off by half a bit at most",
  "Of two JSON numbers that fit the buffer, the larger one is never read as a smaller value; of two finite values, the larger one is never written as a smaller number, neither with fixed precision (below 10^18) nor in scientific notation; so values written as one floating-point type and read as another keep their order. Up to the largest finite value, the value read differs from the number by one part in 2^prec at most (prec: 24, 53 or 64 bits), or by half the smallest positive value near zero. Numbers that are values of the type are read exactly, so integers of up to prec bits are; 2^53+1 is not. The order is not strict: different values may be written alike.",
  "all formats, numbers, finite values, continuations and error states", "Pairs of numbers and of 2^64 values cannot be enumerated; violations would sit at the boundaries of decades and binades.",
  ["wjson/serializer/float.hpp: 25-54", "wjson/serializer/float.hpp: 57-80"])

p("From texts in UTF-8 only UTF-8 is read and written",
  "Every string and every text in a char array that is read without error from a text in UTF-8, and every raw value kept of it, is itself UTF-8, wherever it stands inside the value read, unless an escape stands for half of a surrogate pair or, as \\x, for a byte from 128 on; a reading that cuts a character at a quote or at the end of a char array is reported. What is written for values in the domain of valid JSON output is UTF-8, so an exchange from UTF-8 leads to UTF-8. Surrogate pairs and \\x escapes are read as bytes that are not UTF-8, and overlong forms are read and written without an error.",
  "all descriptions (by composition), all texts in UTF-8 without such escapes, all old values", "All code points, all positions inside nested values, all lengths of char arrays.",
  ["wjson/parser.hpp: 446-480", "wjson/serializer/string.hpp", "wjson/serializer/raw_value.hpp"])

p("Of the alternatives of a member_if one is always unset",
  "Of the two alternatives of a member_if one holds what it reads from null after any reading, with or without error, of the object or of the array of members, if one did before; a reading that comes to the member_if leaves it so whatever was there before. A text that does not come to it leaves both as they were, so a target in which both are set may keep both.",
  "all structs in which the alternatives and the other members are independent fields, all texts, old values and error states", "All texts, valid and broken, and all states of the target; the tests read into fresh structs.",
  ["wjson/serializer/object.hpp: 308-337", "wjson/serializer/object_array.hpp: 186-227"])

if __name__ == "__main__":
    out = os.path.join(os.path.dirname(__file__), "..", "properties.jsonl")
    with open(out, "w") as f:
        for q in P:
            # a pattern stands for all files it matches in the repository
            q["anchors"] = [x for a in q["anchors"] for x in (sorted(os.path.relpath(g, "/repo") for g in glob.glob("/repo/" + a)) if "*" in a else [a])]
            f.write(json.dumps(q, ensure_ascii=False) + "\n")
    print(len(P))
