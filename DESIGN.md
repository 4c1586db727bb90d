# Formal model of mambaru/wjson in Rocq/Coq 8.16.1

## How the code is modelled

wjson is a header-only C++ JSON library.  The model is a shallow embedding:
each C++ function template of interest becomes one total Gallina function with
the same control flow, preceded by a comment with file and lines.

* **Bytes** are `Z` in `0..255` (the value of the `unsigned char`).  Platform:
  x86-64 gcc, 8-bit two's complement, `char` signed (only relevant for
  `enumerator.hpp`'s `*beg <= ' '` and `value<char>`), `int` 32, `long` 64 bit.
* **Input iterators** `beg` over `[beg,end)` are the remaining suffix, a
  `list Z`; `end` is `[]`; `std::distance(beg,end)` is `length`.
* **Reads at `end`**: a parameter `sn : option Z` gives the byte found at
  `*end`.  `None` means such a read is undefined behaviour (result `UB`);
  `Some 0` models `std::string`/C strings; `Some c` a sub-range of a buffer.
  Advancing past `end` is always `UB`.
* **`json_error* e`** is `option json_error` (`None` = `nullptr`).
* **Results** are `res A := Ok a | UB | Fuel`.  `UB` marks undefined behaviour
  (out-of-range read, signed overflow, stack buffer overrun), `Fuel` an
  exhausted recursion counter; C03 and C59 show `Fuel` never happens.
* **Output iterators**: a serializer produces a list of write operations
  (`W b` for `*(itr++)=b`, `PW b` for `*(++itr)=b`, `Sub l` for a call whose
  returned iterator is thrown away).  Two interpreters run that list: one for
  `std::back_inserter`, one for a raw `char*`.
* **Integers**: a type is (bytes, signed); arithmetic follows promotion to
  32-bit `int`; signed overflow is `UB`; casts wrap.
* **Serializers** are a record `codec A` of a write function `ser` and a read
  function `des` (`des c sn old s e` returns the new target, the iterator and
  `*e`; `old` is what the target held before).  Composite serializers are
  functions from codecs to codecs, so nesting is unrestricted.

## Files

`X.v` is the model, `SpecX.v` the specification, `XProofs.v` the proofs,
`Properties_X.v` the theorems named in MANIFEST.json.

| model | source | content |
|---|---|---|
| Base.v | error.hpp | bytes, results, `json_error`, `create_error` |
| Parser.v | parser.hpp | the recogniser, `despace` |
| Out.v | (iterators) | write operations and their two interpreters |
| Number.v | number.hpp, bool.hpp, parser.hpp 632-659 | integers, bool |
| StringS.v | string.hpp | `std::string`, `vector<char>`, `char[N]` |
| Array.v | serializer/array.hpp, specialization/array.hpp, dict.hpp, field.hpp | vector/deque/list/set/multiset, J[N], std::array, dict, map, multimap |
| Unord.v | specialization/array.hpp, dict.hpp | unordered_set/multiset/map/multimap |
| Object.v | serializer/object.hpp, member.hpp, member_p.hpp, member_if.hpp, base.hpp, member_value.hpp | objects |
| ObjectArray.v | serializer/object_array.hpp, member_array.hpp | objects as arrays |
| Enum.v | enumerator.hpp, flags.hpp | enumerators, flags |
| Wrap.v | quoted.hpp, raw_value.hpp, iterator_pair.hpp, pointer.hpp | wrappers |
| TimeSize.v | time_interval.hpp, size_value.hpp | intervals, sizes |
| Float.v | float.hpp | floating-point numbers up to text conversion |
| Fp.v | float.hpp 32-42, 73-78 (`ss << v`, `ss >> v`) | binary floating-point values and the conversions of the streams |
| Misc.v | multi_deserializer.hpp, schema.hpp, strerror.hpp, _json.hpp | utilities |
| Desc.v | (specification) | the sets of descriptions composable from all of the above, with their domains |
| Programs.v | examples/example11.cpp, example16.cpp, example17.cpp | the dispatching and parsing loops of three example programs |

CodecLaws.v holds the laws every codec is proved to satisfy (`dlaw`: range,
stickiness, error position, no `Fuel`; `dsafe`: no `UB`).  ParserFacts.v,
Grammar1.v, Grammar2.v, DespaceProofs.v, ErrPos.v and ParserProps.v are proofs about the
parser; DescProofs.v, PtrProofs.v and EndProofs.v do the inductions over compositions.

## How properties are stated

Specifications (`Spec*.v`) are small and do not use model functions: the
RFC 8259 grammar with strict UTF-8 (`rvalue`), the extended grammar actually
accepted (`wvalue`), the meaning of string literals, decimal numerals, sorted
lists, association lists, sums of time components.  `Properties_*.v` contain
only theorem statements with `Print Assumptions` below and a concrete case
(`Example`) beside.  If a property as stated is false for the code, a
`..._refuted` theorem gives a witness (or, where possible, covers every input
of a class), and the largest true part we have is proved, named `..._partial`
or described by its name.

## Conformance with the project's tests

Conformance.v evaluates the expectations written in `tests/*_suite.cpp` and
`examples/*.cpp` in the model; each `Example` names the line it comes from.
This checks the model against what the authors assert.  The C++ code was never
run here, so it is no comparison with the program's actual behaviour.  Left out:
floating point, iteration order of unordered containers, assertions about
overload detection (`has_schema1`..`4`), and writing from the dangling
iterators of util_suite.cpp:72.  std::list and std::deque are checked through
the same model as std::vector.

## Per property

| id | model | method |
|----|-------|-------|
| C01, C02 | Parser.v | induction on derivations / strong induction on length; both directions |
| C03 | Parser.v | fuel = length of input; no-`Fuel` lemma |
| C04 | Parser.v, `sn` | refuted for `sn=None`; safe and independent of `*end` when it is readable |
| C05, C06, C08 | Parser.v | one invariant of every parser function |
| C07, C09, C59 | everything | `dlaw` per serializer, closed under composition (`desc`) |
| C10, C11 | `parse_space`, `despace` | structural induction; token lists |
| C12, C13 | `parse_number`, `parse_string` | grammar equivalence |
| C14-C18 | Number.v | loop invariants; C18 and the minimum of wide signed types refuted |
| C19-C24 | StringS.v | decomposition into escapes and UTF-8 chunks; refuted for some control bytes |
| C21 | everything | `jdesc`: output is RFC 8259 JSON, so accepted by C01 |
| C25, C26 | Number.v and all | case analysis |
| C27-C32 | Array.v | loop invariants over an abstract element codec |
| C33-C40 | Object.v | member-list induction; refutations where stated |
| C41 | ObjectArray.v | induction |
| C42, C43 | Enum.v | greedy decomposition of unions; separators |
| C44-C47 | TimeSize.v | arithmetic of components; refuted for negative and overflowing values |
| C48-C51 | Wrap.v | composition with string/parser theorems |
| C52 | Out.v | lists with only `W` agree; refuted for the four serializers with others |
| C53-C58 | Misc.v | list induction |
| C60 | Parser.v | error position against the first offending byte; for every rejected text the parser's errors are located by induction, with a proof that no completion of the text up to and including that byte parses |
| C61-C63, C74 | Float.v | conversion text<->value is a parameter with its laws as hypotheses; C74 compares the two branches of the writer |
| C64 | everything | `rdesc`: round trip of every composition on explicit domains |
| C65 | Unord.v | hash table is a parameter constrained by the container requirements |
| C66 | everything | two runs in lock step (PtrProofs.v); `pure_desc` in SpecPtr.v |
| C67 | everything | `end_desc`, `bad_hex` in SpecEnd.v; invariant in EndProofs.v |
| C68 | everything | `tdesc` in SpecType.v (value predicate of every target type) |
| C69 | everything | `tdesc` and `rdesc`/`jdesc` with the same predicate; `hdesc`, `mild` (`SpecSettle.v`) for readings without error; `memb_keeps`, `null_gives` (`SpecIf.v`) for member_if |
| C70 | everything | `sdesc`, `tame` in SpecAccept.v; `wvalue` in SpecJson.v |
| C75 | everything | `gdesc`, `same_reading` in SpecRespace.v; `layout` in SpecDespace.v; two runs in lock step over texts with the same tokens |
| C76 | string.hpp | `reads`, `chunk`, `literal` in SpecExact.v; iff, by induction over the literal one way and over the reader's loop the other |
| C77 | parser.hpp unserialize_integer, number.hpp, float.hpp, enumerator.hpp | `stored`, `int_end`, `low`, `first_of` in SpecExact.v |
| C78 | array.hpp, field.hpp | `after_gap`, `elements`, `slots` in SpecExact.v over any element description satisfying `dlaw` |
| C79 | object.hpp, object_array.hpp | `named`, `takes`, `passes`, `members`, `places` in SpecExact.v; lists without member_if |
| C80 | bool.hpp, pointer.hpp, quoted.hpp, raw_value.hpp, member_value.hpp | stated with `reads` of the wrapped description and `waccept` |
| C81 | time_interval.hpp, size_value.hpp | `wrapped`, `computes`, `parts`, `sunit` in SpecExact.v |
| C82 | parser.hpp parse_*, all failures | `fails`, `num_refuses`, `str_refuses`, `member_refuses`, `broken` in SpecRefuse.v; iff, plus totality and exclusiveness of the description itself |
| C83 | string.hpp, number.hpp, bool.hpp, float.hpp, enumerator.hpp, all failures | `faults`, `loose`, `stops`, `str_faults`, `int_faults`, `enum_faults` in SpecFail.v; iff, including target and rest returned |
| C84 | pointer.hpp, quoted.hpp, raw_value.hpp, member_value.hpp, time_interval.hpp, size_value.hpp, all failures | `rquoted_faults`, `tstep`, `parts_fail`, `size_faults` in SpecFail.v |
| C85 | time_interval.hpp, writer | `amount`, `clock`, `fraction` in SpecUnits.v; iff, plus uniqueness of the description |
| C86 | size_value.hpp, writer | `size_names`, `fitting`, `preferred`, `size_text` in SpecUnits.v; iff, plus uniqueness |
| C87 | flags.hpp, reader | `past`, `follows`, `flag_items`, `lead`, `boundary`, `behind`, `skips`, `flag_words`, `flag_text` in SpecFlags.v; iff for success and failure, plus uniqueness |
| C88 | Array.v, readers | `runs`, `first`, `gap_run`, `lit_run`, `tail_run`, `seq_run`, `seq_text`, `field_run`, `slots_run`, `slots_text` in SpecRun.v: a big-step semantics of all outcomes for any incoming error record; iff with the model |
| C89 | Object.v, ObjectArray.v, readers incl. member_if | `name_run`, `mem_run`, `reset`, `memb_run`, `skip_run`, `search_run`, `step_run`, `rest_run`, `members_run`, `struct_text`, `places_run`, `oarray_text` in SpecRun.v; iff with the model; skipped members use the failure grammar of C82 |
| C90 | readers of values, containers, fields, quotes, pointers | `twin`, `bold_twin` in SpecOld.v: descriptions that differ only in the contents of local targets; equality of results for any two old values. The local `target tg` of array.hpp:67 is indeterminate for built-in types: the model gives it an arbitrary value d0, and inserting it after a refused floating-point or quoted element (undefined behaviour for C++) is an ordinary outcome that contains d0 |
| C91 | StringS.v, Number.v, both directions | `respelt`, `oversized`, `survives` in SpecRound.v (bytes only, no model functions); iff with write-then-read |
| C92 | all readers of `tight` (SpecNear.v) | `reads` of SpecExact.v only: texts with a common beginning are compared; refutations for numbers, pointers, times |
| C93 | `time_ser`, `time_des` (TimeSize.v) | `ms_kept` in SpecTimeRound.v (a predicate on type and remainder); iff with write-then-read; the finite part (6 types, 1999 remainders) by evaluation |
| C94 | `size_ser`, `size_des` (TimeSize.v) | `byte_count`, `size_kept` in SpecSizeRound.v (arithmetic only); iff with write-then-read |
| C95 | all typed readers | `too_big`, `time_over`, `size_over` in SpecUndef.v, `seq_bad` … `places_bad` in SpecUndefAll.v: the forbidden place is described in the text, reached through `runs` (SpecRun.v) of what stands before it; iff with the result `UB`. A null `json_error*` is not covered; flags with an empty name list are excluded |
| C96 | writers of all types | `idesc` in SpecInject.v: descriptions with the values that are told apart; the statement only uses `writes` (SpecWrap.v). Unordered containers and `member_if` are excluded, the latter with a witness |
| C97 | writers of all types, `despace` | `cvalue` in SpecCompact.v: the RFC grammar without whitespace; `cdesc` is `jdesc` with compact raw values. `despace` is only used through its result |
| C98 | writers of one type, readers of another | `gives` in SpecPass.v: the written text is read as the given value and consumed exactly; `member_goes` for structs. The value a set receives is given by `sorted_lt` and `find`, a fixed array's by its element list |
| C99 | raw_value and every other reader | `reads` (SpecExact.v) of the text and of the kept text; `alike` in SpecLater.v relates two structs member by member, `followed` is what may stand behind an element |
| C100 | parse_null … parse_member, is_null … is_utf8 (Parser.v) one by one | `warray`, `wobject`, `nodig` in SpecKinds.v over the grammar of SpecJson.v |
| C101 | `show_parse` of examples/example17.cpp (Programs.v) | `unshown`, `stuck` (SpecShow.v) for the reports; `shown` in SpecPrograms.v over `elements` and `reads` (SpecExact.v) and the grammar (SpecJson.v) |
| C102 | examples/example11.cpp and example16.cpp (Programs.v), without the lines printed for each element | `turned`, `mirrored`, `leading`, `array_of` in SpecPrograms.v |
| C103 | `seq_codec`, `hash_codec`, `std_array_codec` and the containers (Array.v, Unord.v) | `outcomes`, `as_set`, `as_multiset`, `as_unique` in SpecAlike.v over `sorted_lt`, `eqv` (SpecSeq.v), `finger` (SpecMulti.v), `distinct` (SpecUnord.v) |
| C104 | all serializers (`ser`), `ptr_run` (Out.v) | `lens`, `listed`, `nlen`, `iwidth`, `memb_len` in SpecLength.v |
| C105 | all serializers (`ser`) | `tree`, `means`, `denotes`, `says` in SpecTree.v; `lmean` in SpecString.v, `numeral`, `jint` in SpecNum.v |
| C106 | all deserializers (`des`) | `simple`, `sees`, `tells` in SpecTree.v |
| C107 | all deserializers (`des`), `parse_space` | `drain` (the caller's loop), `records`, `complete`, `log_of`, `cuttable` in SpecStream.v over `reads`, `after_gap` (SpecExact.v) and `tight` (SpecNear.v) |
| C108 | `parse_value_f`, `parse_array`, `parse_object`, `parse_member`, `items_loop` | `nests` (depth over the grammar of SpecJson.v), `opens`, `tower` in SpecDepth.v |
| C109 | all deserializers (`des`) | `weighs`, `load`, `total`, `holds` in SpecWeight.v: what a value holds, by its description |
| C110-C112 | `get`, `put`, `fixed`, `scientific`, `round` (Fp.v) through `float_codec` | `nearest`, `worth`, `finite`, `denotes` in SpecFp.v: values and decimal texts as rationals (QArith) |
| C113 | all serializers and deserializers (`ser`, `des`), real conversions of Fp.v | `twins` in SpecTwin.v over `to_decimals`, `to_seven`, `nearest` (SpecFp.v) and `rdesc`: which value each value comes back as |
| C114 | `real_codec` (Fp.v): `des`, `ser` | `worth`, `denotes`, `finite` in SpecFp.v; order and distance of rationals |
| C115 | all deserializers and serializers (`des`, `ser`) | `utf8` (SpecString.v: concatenations of encoded scalar values), `end8`, `no_half`, `text8` in SpecUtf8.v; `hdesc` (SpecSettle.v) for compositions |
| C116 | `object_des`, `oarray_des`, `memb_des`, `amemb_des` | `one_unset`, `null_gives`, `apart`, `keeps_set`, `parts` in SpecIf.v |
| C31 (order) | `multi_insert` (Array.v) | inductive `finger` in SpecMulti.v: where the last element stands and where the next one goes; the content is shown to be the only one the relation allows |
| C71-C73 | Array.v, Object.v, ObjectArray.v and leaves | `reports` in SpecReport.v: code, expected text, position and target after a failed call; step over the well-formed prefix, then one case per mistake |

## Not modelled, and simplifications

* Conversion text<->`double` (`std::stringstream`): parameters `fmt`, `scan`;
  theorems that need it assume `scan_law` (longest numeral prefix is read).
  Fp.v gives one instance, which satisfies `scan_law` (`get_law`): IEEE binary
  formats, correct rounding to nearest in both directions, the C locale, and a
  conversion that stores the largest value on overflow.  This is what the
  streams of libstdc++ over glibc do, but the standard library itself is not
  modelled: C110-C114 trust that description.
* Hash table internals: a record of operations, constrained by `unique_keys` /
  `equiv_keys` in the theorems.
* Template metaprogramming (`fas`): member lists are the flat lists
  `fas::normalize` produces (`base<>` is spliced), `fas::pow` is a power.
* Overload selection: the model starts after it; instantiations that do not
  compile (dict over set, multiset, std::array, unordered_set; one-byte
  `size_value`) have no model.
* Memory allocation, `reserve()`, exceptions, recursion depth.
* Lifetimes: `iterator_pair` is modelled by the bytes it delimits.
* `quoted` reads its inner `std::string` with a readable NUL at its end.
* `time_interval` with fractions <= 0 and `size_value` with metric <= 0.
* The static functions a class offers to schema.hpp are pure functions.
* Unused counters of parser.hpp (`p`) are dropped where they are never read.

## Trusted base

* The Coq 8.16.1 kernel, including its `vm_compute` reduction (used for finite
  sweeps over bytes and for examples).
* The reading of the C++ sources into the definitions listed above.
* `Print Assumptions` reports `Closed under the global context` for every
  theorem named in MANIFEST.json: no axioms, neither our own nor the standard
  library's.  (Tools that list all axioms of *loaded* libraries also show seven
  constants `Coq.ssr.ssrunder.Under_rel.*`, a standard library module type
  instance loaded through `Lia`/`ZArith`; no theorem depends on them.)

## Checking the theorems against wrong programs

`seeded/LOG.jsonl` records edits of the model that imitate realistic bugs.
`failed` lists the theorems that depend on a proof script which no longer
checks after the edit.  That is weaker than the statement being false: a
script can break although its statement still holds.  `broken_scripts` are the
lemmas whose scripts broke directly, `tightened` what was added when the
theorem meant to exclude the edit still went through.
