notes = {
'C01': 'Both the compiler-builtin and the portable variant of every checked operation. INT64_MIN % -1 is an error although 0 is representable (C01_mod_min_by_minus_one_is_error); the property statement names this exception.',
'C02': 'int and uint.',
'C03': 'Exact order for all pairs that are exactly comparable (partial theorem); for all pairs without exception: strict answers are right, never reversed, and a wrong "equal" is within 1024. Full statement refuted by a concrete pair (2^53+1 vs 2^53 as a double).',
'C05': 'Reflexive and symmetric in full; transitivity refuted beyond 2^53, proved on exactly comparable triples.',
'C06': 'The documented range for int(double) is the open interval (-2^63, 2^63).',
'C08': 'timestamp + duration proved in full. Durations beyond 2^63 ns, although accepted by the validity check, are silently clamped by the checked duration operations (refutations). With the overflow option off (default) results are exact but can leave the range (refutation). The difference of timestamps may spuriously fail within one second of the 64-bit nanosecond bound.',
'C09': 'Flat and Cord-iterator decoding.',
'C10': 'Flat strings and Cords; malformed flat strings count each byte that starts no character as one.',
'C11': 'All three quoting functions and EscapeString/UnescapeString.',
'C13': 'Also: the content is the decoded text, snippets are its lines, malformed texts are rejected.',
'C41': 'Unescape functions for every text; literals in single or double quotes with every inner quote escaped. Triple-quoted literals are modelled but only their well-formedness (C40) is proved.',
'C42': 'Validity and validation agree for all byte strings, the count for all well-formed ones. Refuted for the count of malformed Cords: the reader overwrites its buffer when it peeks twice, and then aborts (E1 E1 80 41 41).',
'C43': 'Refuted at exactly 2^31 - 1 bytes: the size check accepts the text and the final offset + 1 overflows int32_t. Proved for every other size.',
'C15': 'Refuted for maps holding 1 and 1u at once; proved when no map has two numerically equal keys.',
'C17': 'Soundness for all values; completeness when no map inside has a uint key; refuted otherwise ({1: 2} in [{1u: 2}]).',
'C18': 'The built-in operators are proved in full; the registered uint overload tests the wrong variable and misses int keys (refutation).',
'C19': 'Iterative and recursive logic steps, with and without unknown processing.',
'C31': 'Proved for attributes whose qualifiers come from key kinds. Refuted for others: operator< leaves attributes with an invalid qualifier (e.g. a[1.0] matched by a wildcard) incomparable, and the set drops one. Unknown function results are not modelled.',
'C44': 'Refuted inside optionals, which compare with the stricter element equality; proved when optionals hold no map with uint keys and no map has two numerically equal keys.',
'C45': 'Proved for optionals holding maps indexed with keys of a lookup kind; refuted for lists and wrong-typed keys.',
'C20': 'Proved for every expression whose comprehensions are those of the macros (C20_macros), up to the name in a ternary error, on hosts making no unknown values, when the slots of cel.bind variables are apart from those of early-exit comprehensions (in particular without cel.bind) and within the iteration budget. Each condition is needed: four refutations.',
'C21': 'Proved whenever bind slots are apart from the slots a short-circuited comprehension leaves set: with short-circuiting off, without cel.bind, or without early-exit comprehensions. Refuted otherwise (same cause as C25).',
'C22': 'The recursive program computes the meaning of the expression when its loop steps may run in place (all macros, C22_macros), and then agrees with the iterative program up to which error is reported. Refuted for: custom loop steps that alias the accumulator, colliding map literal keys, has() on optionals, unknown tracking (two ways), and the slot leak of C25.',
'C23': 'Iterative programs. The recursive counterpart is C54.',
'C24': 'Iterative programs. The recursive counterpart is C53.',
'C25': 'Refuted for the default planner: a short-circuited comprehension leaves its slot set and a sibling cel.bind reads it. Proved with short-circuiting off, or when no cel.bind or no early-exit comprehension occurs.',
'C26': 'Meaning level theorems for each macro over all lists and maps in full; C26_run_partial lifts them to programs under the side condition of C21.',
'C29': 'At most once: in full. Substitution: partial (the slot leak of C25 refutes it in general).',
'C32': 'Proved for source-language expressions with short-circuiting: the completed result is the same scalar, or also an error, or the same container except at attributes marked unknown. Refuted in six ways: containers returned whole, exhaustive ternary, orValue, numeric keys of another kind, @not_strictly_false used directly, and completions that fail with a status (duplicate map keys). Unknown function results and missing attributes are not modelled.',
'C33': 'Up to 2^30 operands (the balancer indexes with int).',
'C35': 'One context at a time. Two overlapping prospective contexts can still create a cycle (C35_overlapping_contexts_cycle), which the checker does not do.',
'C36': 'Reflexivity, dyn/any, rollback, monotonicity and ground types in full. For plain types (no dyn, wrapper, null) success gives equal instances and a most general substitution. Refuted in general: success does not imply conformity once dyn or null widening is involved.',
'C37': 'Laws in full for the operations as defined; agreement of sets.contains with == refuted for maps whose keys differ in kind; equivalence not transitive on mixed numerics beyond 2^53.',
'C38': 'lists.range of a negative number aborts the process (refuted); sort with NaN violates the precondition of std::sort (refuted); distinct may keep a later element when numeric equality is not transitive (refuted). Everything else in full.',
'C39': 'ceil, floor, round, trunc, sqrt and the classification functions are not modelled.',
'C46': 'All nine macros over lists and maps at the meaning level.',
'C47': 'Short-circuiting plans.',
'C49': 'Eager functions in full. Refuted for lazy functions, which are looked up by unqualified name only.',
'C51': 'Plain element types. Refuted for maps mixing null and message values.',
'C52': 'Planning with max_recursion_depth n > 0, -1.',
'C53': 'Recursive programs.',
'C54': 'Recursive programs.',
'C55': 'Nesting counters unbounded; error texts shortened.',
'C56': 'Proved when the names of message and abstract types are not signature words of other types; refuted without that.',
'C57': 'Writing always succeeds; reading back proved for names without white space, refuted with it.',
'C58': 'Safety in full, under sequential consistency (justified by the absence of races). Progress proved when providers end and do not look up provided variables of the same activation; refuted otherwise.',
'C59': 'Refuted for the attribute matcher only.',
'C60': 'Proved when all evaluations use one arena; refuted otherwise.',
'C61': 'Iterative programs; the runtime is assumed to iterate equal maps in the same order at plan time and at run time.',
'C62': 'cel.@block is read as nested bindings of @index0, @index1, ...; the final type check is left out. No claim about the value when the verdict is an unknown.',
'C63': 'cel.@block is read as nested bindings.',
'C64': 'Refuted, with and without policy variables. Proved for rules without nested rules, with the height of the expressions of the policy as margin.',
'C65': 'Proved for replacements that keep the literal true; refuted for those that do not.',
'C66': 'Strings whose byte size fits int64_t; well-formed UTF-8.',
'C67': 'charAt in full; substring proved except for the two refuted cases.',
'C68': 'Strings whose byte size fits int64_t; well-formed UTF-8.',
'C69': 'Strings whose byte size fits int64_t; well-formed UTF-8.',
'C70': 'Well-formed UTF-8.',
'C71': 'Proved for expressions whose recorded types are free of dyn, null, wrappers and types of types, whose loops have boolean conditions that do not read the loop variables and steps of the type of the accumulator, without optional field selection and without selection on bare type variables; refuted, with concrete expressions, where loop types or bound type variables are concerned. Empty container, no message construction.',
'C72': 'Empty container, no message construction, no limit on the number of nodes or issues.',
'C73': 'Empty container, no message construction; calls of the optional select operator excepted.',
'C74': 'Unknown processing off, messages not modelled, standard declarations of the operators. The reference semantics in full; programs under the hypotheses of C21; checker acceptance under the hypotheses of C71. Refuted for dyn, map keys and indexing of optionals.',
'C75': 'Sequentially consistent interleavings of the atomic operations; C75_limit_needed shows that the limit on the number of references cannot be dropped.',
'C76': 'Proved for printable expressions (S_Unparse.printable) whose text has at most 2^30 characters, up to grouping and, without balancing, exactly; refuted for the expressions listed. No doubles, no messages; ids, positions and recorded macro calls are not modelled.',
'C77': 'Token level; the lexer is the model of M_Lex (its tokens are part of the statement). No message construction; ids, positions, the recursion limit and error texts are not modelled; the expansion of macros and the balancing of && and || are those of C26, C33, C46, C47.',
'C78': 'Proved for release builds; refuted for debug builds. One thread (C75 for the counts). Caller-made Cords hold copies.',
'C79': 'Counts do not overflow (C75). The promise that the allocator does not change is refuted; C78 and C79 use the arenas that the operations really leave.',
'C80': 'The digits of doubles and the text of timestamps are parameters. Both directions for arguments of which no map has two keys with the same text (C82 says what happens then); totality for all arguments. Finite durations of whole nanoseconds, no messages.',
'C81': 'The digits that absl prints for %o, %d and %x are modelled, not proved; %b is the loop of the code.',
'C82': 'Proved when no map has two keys with the same text; refuted otherwise.',
'C83': 'Proved for arguments without bytes values, when the texts of doubles and timestamps are ASCII; refuted for bytes.',
'C84': 'Callbacks are recorded as events with the expressions they get; the visitors themselves are not modelled. Addresses and source positions are not modelled.',
'C85': 'Nodes are numbered by their index; FindExpr, which looks up an address, is not modelled.',
'C86': 'Postorder: refuted for every node but the root, proved for the root. Relations: proved when every map entry has its key and its value, refuted otherwise.',
'C87': 'A pointer is a place in the tree; a callback changes only the expression it is given. The expressions behind the traversal path are part of the statement, addresses are not.',
'C88': 'Unchanged trees: proved when every list element and every piece of a comprehension is set, refuted otherwise (they get set).',
'C89': 'Proved when every struct has a name and every list element is set; refuted for structs without a name. Unset list elements come back set (to the empty expression).',
'C90': 'Proved up to the type of the unset type (round trip) and the type of no type (copies); both exceptions refuted. Absent and empty submessages are the same message here.',
'C91': 'Proved when everything that may be set is set, no constant is zero and no comprehension has a second variable; the last restriction is a defect, refuted.',
'C92': 'Proved for trees whose expressions are as in C89 and whose types are as in C90. Maps are lists of entries in the order of iteration; the destination message is new.',
'C93': 'Refuted by three accepted steps that double the accumulator; proved for steps that use the accumulator in the ways listed (plain_use) with a registry whose + and dyn return nothing larger than their operands. One iteration variable, unknown processing off. Errors and unknowns count as size one.',
'C94': 'Proved except for names reused as a second iteration variable; that exception is refuted.',
'C95': 'Histories consist of AddOverload, set_name and release_overloads. Unambiguity is proved for parameter types without wrappers in which dyn is the whole type or below types with one parameter, and refuted otherwise.',
'C96': 'Lookup by signature is proved when no other overload has that text as id or as signature, and refuted otherwise.',
'C97': 'Agreement with the type checker is for types without type variables. Type parameters inside type(...) are not reported: refuted for those, proved for the others.',
'C98': 'A descriptor is its full name. Proved for types whose message and enum names the pool has and whose abstract type names it does not have; refuted for the latter. For texts, names are as in C55.',
'C99': 'Unknown processing is off and values contain no errors. Proved for maps with bool, string, int, uint and double keys and for lists with int indexes; refuted for lists with other numeric indexes and for keys of invalid kinds.',
'C100': 'Maps only: selection from messages is not modelled.',
'C101': 'All kinds except messages.',
'C102': 'All functions of optional types except selection from messages.',
'C103': 'The overload for messages is left out of the list of registered functions. That a failed attempt registers nothing is refuted.',
'C104': 'Printing and parsing of doubles is a parameter. That converting twice changes nothing is proved for builds without debug checks or with range errors, refuted otherwise.',
'C105': 'Durations are whole nanoseconds: parts below a nanosecond, which absl::Duration keeps in quarters, are not modelled, so a term with a fraction must be a whole number of nanoseconds and have at most nine digits after the point. Refuted for whole parts above 2^63-1, proved for the others.',
'C106': 'absl::ParseTime and absl::FormatTime are read in M_Civil. The range is proved with the option on and refuted with the default options; that only texts of RFC 3339 are accepted is refuted.',
'C107': 'The database of time zones is a parameter; a zone is the seconds it is ahead of UTC at an instant. Errors for other zones: proved without colons, refuted with.',
'C108': 'A message is its pair of seconds and nanos.',
'C109': 'The texts of absl::Base64Escape and TimeUtil::ToString are readings of those libraries. Structs and messages are not modelled.',
'C110': 'Messages have distinct field names. All proved but reflexivity with NaN, which is refuted as for CEL equality.',
'C111': 'absl::Base64Escape and absl::Base64Unescape are readings of Abseil, whose source is not in the repository.',
'C112': 'Proved for values whose map keys have distinct texts; refuted for the others. Messages are not modelled.',
'C113': 'Transitivity is proved without NaN and for errors that differ; refuted for the others. Messages are ordered by address.',
'C114': 'The nesting limit is not negative. Texts and positions of issues are left out.',
'C115': 'absl::ParseTime and absl::ParseDuration are the readings of C105 and C106.',
'C116': 'Proved for type maps without error types and without optional_type lacking its parameter; refuted for the others.',
'C117': 'Whether RE2 accepts a pattern is a parameter.',
'C118': 'The descriptor pool is a list of messages; message types of fields are in it, as protobuf requires.',
'C119': 'Proved for the masks of the builder itself, for accepted calls and for descriptor names of fields; refuted for the masks of libraries, for refused calls and for JSON names. Extensions and other type providers are left out.',
'C120': 'RE2 is a parameter: a search function whose matches lie in the text. All matches are proved for patterns that do not look at what is before; refuted for the others.',
'C121': 'RE2 is a parameter and RE2::GlobalReplace is a reading of re2.cc. Proved for patterns that do not match the empty text and do not look at what is before; refuted for the others and for counts of 2^31 and more.',
'C122': 'RE2::CheckRewriteString and RE2::Rewrite are readings of re2.cc, whose source is not in the repository. Refuted for the count 0.',
'C123': 'Expanders are opaque and never empty.',
'C124': 'Configure functions of libraries add macros and stop at the first error; those that change options or add libraries are left out.',
'C125': 'Functions are eager; a call is resolved at planning by M_Namespace. Refuted where the container can be put before a resolved name again.',
'C126': 'Stated over the relation that C87 shows AstRewrite to compute. Duplicate ids are allowed except where the statement names ids. Refuted for variables whose reference does not change the name.',
'C127': 'A type of types has at most one parameter. Refuted for enums, functions and names shared between kinds.',
'C128': 'Critical sections are single steps. Proved where RegisterEnum overlaps with no other call and names of enumerators have no dots; refuted otherwise.',
'C129': 'Signatures of overloads are given as data; error messages are left out; types of variables are compared by name as in the code.',
}
