# A machine-checked model of cel-cpp

Everything is in Rocq (Coq 8.16.1), under `rocq/theories`.  The model follows
the C++ sources in `/repo` function by function; each definition carries a
comment with the file and lines it models and the simplifications made.

## Layout

* `Base.v`, `M_*.v` — the model (definitions only, computable Gallina).
* `S_*.v` — small independent specifications used to state the properties.
* `L_*.v` — lemmas and proofs.
* `P_*.v` — the property theorems, each followed by `Print Assumptions`, with
  `Example`s that show concrete non-trivial instances of the hypotheses.
* `../seeded/LOG.jsonl` — seeded bugs: edits of the model and which theorems
  then fail to prove.
* `../tools` — scripts that regenerate `properties.jsonl`, `MANIFEST.json`,
  `_CoqProject` and the list at the end of this file.

## Modelling conventions

* 64-bit integers are `Z` with explicit range predicates.  The C++ code never
  relies on wrap-around except in bit operations (modelled with `mod 2^64`).
* Doubles are `spec_float` from the standard library (`Coq.Floats.SpecFloat`)
  with precision 53 and emax 1024, restricted by `valid_binary`.  The host's
  IEEE-754 binary64 arithmetic is modelled by `SFadd`, `SFsub`, `SFmul`,
  `SFdiv`, `SFcompare`, `binary_normalize`: no axioms are involved.
* Undefined behaviour, crashes and failed internal checks are separate
  outcomes of the model (`UB`, `RFault`, ...) and are excluded by theorem, not
  by assumption.
* Errors (`ErrorValue`) are values; `absl::Status` failures abort evaluation
  and are a different outcome (`Err`).
* Registered functions, activations, types and the iteration order of maps are
  data of the model that all theorems quantify over: there are no oracles and
  no axioms.
* Loops whose termination is part of the claim are run with fuel and the
  theorem states that enough fuel exists; running out is a separate outcome.
* A property that is false of the code as it is has a theorem `..._refuted`,
  which exhibits the failing case, and theorems `..._partial` for the part that
  holds; the comment above them keeps the full statement.

## Properties

| id | what is modelled | how it is proved |
|----|------------------|------------------|
| C01, C02 | `internal/overflow.cc` and the arithmetic overloads over `Z` | case analysis + `lia`/`nia` against a spec `exact_or_error` stated with `Z` operations |
| C03, C04, C05 | `internal/number.h` over `Z`/`spec_float` | spec: order on dyadic rationals; correctness of the int→double conversion for magnitudes ≤ 2^53; counterexamples by computation |
| C06, C07 | the checked conversions and lossless tests; the C cast is a partial function whose out-of-range case is `UB` | truncation of dyadic rationals |
| C08 | durations as nanosecond counts, times as (s, ns) | `lia` |
| C09, C10 | `internal/utf8.cc` on lists of bytes | spec: inductive/regular description of well-formed UTF-8; induction on the string |
| C11, C12 | `internal/strings.cc` | loop invariants of escape/unescape; induction |
| C13 | `common/source.cc` | induction over the text |
| C40–C43 | the same UTF-8, literal and source models | soundness and completeness of the unescape loop against an inductive grammar; counterexamples by computation |
| C14–C18 | values, the two equality implementations, map builder, membership and lookup paths | structural induction on nested values; counterexamples by computation |
| C44, C45 | the same value model | soundness and completeness of == against an inductive relation; counterexamples by computation |
| C19 | logic steps | case analysis over all values |
| C20, C21, C23, C25, C29 | AST, planner (`flat_expr_builder.cc`, slot allocation and code generation), step machine (`evaluator_core`, all step kinds), tree semantics `meaning` | compiler-correctness simulation by induction on expressions, in two stages (elaborated tree with slots; step machine); the slot leak by computation |
| C22, C52, C53, C54 | the recursive planner and the `Direct*` steps, with the aliasing of their result references | simulation between slot-passing evaluation with aliases and the tree semantics; depth and budget by induction |
| C55, C56, C57 | `common/signature.cc`: writer and parser of type and overload signatures | induction on types with a scanning invariant (escapes complete, brackets balanced, no delimiter at depth 0) |
| C58, C59, C60 | `runtime/activation.{h,cc}`: lookups of any number of threads as a transition system, one step per shared access, mutex operation or provider call; moves | inductive invariant over all schedules (lock ownership, memoisation, events so far) |
| C61 | `eval/compiler/constant_folding.cc` on top of the planner; what is evaluated at plan time is the evaluator of the above with the empty activation | simulation between a planned expression and its folded form, for all states; the optimizer produces such a form by induction on the expression |
| C62, C63, C64, C65 | `policy/compiler.cc`: composition of a checked policy into one expression, and unnesting | spec: a first-match search over the rule tree (`S_Policy`); induction over rules with an invariant on variable scopes and the block's list; slicing by induction on expressions; heights by two families of policies (refuted) and by induction on flat rules |
| C66, C67, C68, C69, C70 | `common/values/string_value.cc` string functions, `ByteString::Find`/`Substring`, the wrappers of `extensions/strings.cc` | spec on lists of code points (`S_StrExt`); the loops are proved once for an abstract reader, instantiated with contiguous strings and with Cords cut anywhere; UTF-8 is self-synchronising, so byte search finds characters |
| C71, C72, C73 | `checker/internal/type_checker_impl.cc` visitor over the inference context of C35/C36 | declarative typing rules with substitution (`S_Checker`); induction over the expression with the invariant that every solution of the final bindings solves the earlier ones; termination from that of unification |
| C74 | the evaluator of C21 together with the checker of C71 | the values of a type and the promises of a host (`S_Typed`); induction over the expression with typed environments, then C21 and C71 |
| C75 | the two counters of `common/internal/reference_count.h`, each atomic operation a step of one thread (`M_RefCount`) | owners, schedules and the limit (`S_RefCount`); an invariant with six phases of the object's life, over all interleavings |
| C76 | the lexer and grammar of `parser/internal/Cel.g4`, the visitor of `parser/parser.cc` and `tools/cel_unparser.cc` (`M_Lex`, `M_Parse`, `M_Unparse`) | the expressions that read back and sameness up to grouping (`S_Unparse`); induction over the expression with the text, its tokens, and what every rule of the grammar makes of them before any continuation |
| C77 | the parser of C76 (`M_Lex`, `M_Parse`) | the grammar as derivations (`S_Grammar`); soundness by induction over the fuel, completeness by mutual induction over derivations with what can follow |
| C78, C79 | `ByteString` with its three representations, counted memory, arenas and Cords (`M_ByteString`) | abstract strings (`S_ByteString`); weakest preconditions of every function over an invariant that equates each count with the references held, then induction over the history |
| C80-C83 | `format()` of `extensions/formatting.cc` with its scratch strings (`M_Format`) | texts, numerals and format strings as relations (`S_Format`), shown equivalent to the code by induction over values and over the format string; order independence and UTF-8 follow from the relation, refuted for keys with the same text and for bytes |
| C84-C86 | the stack machine of `common/ast_traverse.cc` and the builder of `common/navigable_ast.cc` (`M_Ast`) | recursive visit, orders and mirrors of the tree as inductive relations (`S_Ast`); the loop shown to run through the visit of any expression by induction on its size, the builder's state described after every such run; the postorder range refuted for all nodes but the root |
| C87-C88 | `AstRewrite` of `common/ast_rewrite.cc` on a mutable tree with pointers as places and the user's rewriter as arbitrary state-passing functions (`M_Rewrite`) | rewriting by recursion as a relation (`S_Rewrite`); the loop shown equivalent in both directions, by induction on the derivation and on the fuel; termination by size; bottom-up rewriting and unchanged trees follow from the relation |
| C89-C92 | the conversions between syntax trees and messages, and the equality of expressions and types (`M_AstProto`) | exact round trips by induction on trees and on messages (`S_AstProto` says which trees and messages); equality shown an equivalence; the exceptions refuted by examples |
| C93-C94 | the reference count and the check at every node (`M_Vulnerable`) | sizes of values, uses of a variable and ways of copying it (`S_Growth`); growth by induction on the step with a bound `count * size + constant`, then on the list; refuted by steps that double; the count shown to be the largest number of copies |
| C95-C98 | function declarations, their overloads, assignability of declared types, conversions between types and their specifications (`M_Decl`, on the types of `M_Infer` and the texts of `M_Signature`) | acceptance as an inductive relation (`S_Decl`), collisions and applicable overloads on top of it; an invariant of the two indexes over all histories; round trips by induction on types; ambiguous and shadowed overloads refuted by examples |
| C99-C103 | the functions of optional types: `_[?_]`, `_?._`, `optional.ofNonZeroValue`, unwrapping, ends of lists, their registration (`M_Optional`, on `M_Value`, `M_Expr` and `M_Registry`) | calls are resolved in any registry for which optional types were enabled (`S_Optional.enabled`), by the uniqueness of overloads of C28; equivalence with the index and select steps by cases; zero values specified by equality with defaults; induction on lists; counterexamples for other indexes and for partial registration |
| C104-C108 | conversions between values and texts, durations, timestamps, their accessors and messages (`M_Convert`, on `M_Civil`) | texts specified by place values and by concatenation of fields (`S_Convert`, `S_Format`); the calendar specified by counting day by day from 1970-01-01 and matched with the arithmetic of days by computing the years of an era and the days of a year in the kernel, the rest by monotonicity; parsers proved on concatenations by induction on digits and terms, and inverted for what they accept; counterexamples for debug builds, default options, other zones and long numbers |
| C109-C112 | conversions between values and JSON, equality of JSON, base 64, legacy export (`M_Json`) | base 64 specified by bits and an alphabet (`S_Json`), JSON of a value and sameness of JSON as relations up to the order of fields; induction on values and JSON; equality by reduction to the equality of values (C14, C15); counterexamples for large integers, infinite durations and colliding keys |
| C113 | the order of legacy values in sets (`M_Compare`) | the order as a relation: kinds first, then values, lists by size and elements, maps by size and entries in the order of keys (`S_Compare`); induction on values; counterexamples with NaN and with errors that say the same |
| C114-C117 | the validators of checked expressions (`M_Validator`): depth, nesting, literals of times, homogeneous literals, patterns, and their combination | what each looks for is stated on the expression (`S_Validator`: an occurrence and the expressions above it); the nodes of the navigable tree are matched with the occurrences by induction, the way up through parents is bounded by the depth; literals are compared with the conversions of C105 and C106; counterexamples with error types |
| C118, C119 | proto type masks (`M_TypeMask`): paths, the registry of visible fields, the builder's context declarations and the lookup of fields | visibility is stated by walking paths in the descriptor pool (`S_TypeMask`); the registry is matched with the walked fields by induction on paths and masks; counterexamples with a library, a refused call and JSON names |
| C120-C122 | the regular expression extension (`M_RegexExt`) over a search function that stands for RE2 | matches are stated by searching the whole text from where the last one ended (`S_RegexExt`), replacement strings by a grammar; the loops, which search what is left of the text, are matched with that by induction on fuel, for patterns that do not look back; counterexamples with the patterns `^a` and the empty one |
| C123-C124 | keys of macros, the registry of macros and the builder of parsers (`M_Macros`) | the macro for a call and the macros a builder is asked for are stated over lists of macros and the calls they are for (`S_Macros`); keys are shown to be injective because names are identifiers, the registry to represent the list of accepted macros by induction over registrations, with the roll-back of refused ones |
| C125-C126 | resolving references and qualified names of functions before planning (`M_Resolve`, on the traversal of `M_Rewrite` and the resolver of `M_Namespace`) | the function a call finds is stated with `innermost` of `P_Names`, the tree with `rewrites` of `S_Rewrite` and qualified names in `S_Resolve`; by induction over containers, over the fields of a qualified name and over the rewriting (marked ids only grow, and come from inside); double resolution and variables taken for namespaces are refutations |
| C127 | the text of a type (`M_TypeName`) | the loop with its stack of offsets is shown to write a term of names (`S_TypeName.written`) by induction over types and over the parameters still to come; terms are read back from their text by induction over their size, and types from terms by a reader |
| C128 | registering enums and the table of their values, made on demand under a lock (`M_EnumTable`) | schedules are lists of critical sections of any number of threads (`S_EnumTable.schedule`); by an invariant over schedules: the table, if there is one, gives what was last registered; the table of a hash map in any order by permutations, keys split at the last dot; sharing by induction over schedules without registrations |
| C129 | the configuration of environments and the subset of the standard library (`M_Config`) | by an invariant over sequences of calls; acceptance and the subset are stated with membership in lists (`S_Config`) |
| C24 | the iteration counter threaded through the above | invariants of the counter |
| C26, C46, C47 | macro expansion functions on top of the tree semantics | induction on the range |
| C27, C28 | function registry and dispatch | induction on registration histories; a log of invocations in the machine |
| C30, C31 | attributes, patterns, unknown sets | induction on paths |
| C32 | unknown processing in the tree semantics | logical relation between partial and complete evaluations, by induction on expressions; lifted to programs by C21 |
| C33 | `ExpressionBalancer` | well-founded induction on intervals; associativity of the three-valued operators |
| C34, C48, C49 | `ExpressionContainer`, `NamespaceGenerator`, `Resolver` | list induction; invariants over operation sequences |
| C35, C36, C51 | `TypeInferenceContext`, list and map literals of the checker | acyclicity of the binding graph; most general unifiers |
| C37, C38, C39, C50 | extension functions (sets, lists, math) and the math macros | list induction, sorting, bit-level lemmas of `Z` |

## What each model file covers

* `M_Overflow`: `internal/overflow.cc` (integer, duration, time), arithmetic overloads of `runtime/standard/arithmetic_functions.cc`.
* `M_Number`: `internal/number.h`, double conversions of `internal/overflow.cc`.
* `M_Utf8`, `M_Strings`, `M_Source`: `internal/utf8.cc`, `internal/unicode.h`, `internal/strings.cc`, `common/source.cc`.  Of Cords, the chunk iteration is modelled for the UTF-8 functions only; the error messages of `strings.cc` are not modelled.
* `M_Value`: `common/values/*`, value builders, `equality_functions.cc`, `container_membership_functions.cc`, `equality_steps.cc`, `container_access_step.cc` for null, bool, int, uint, double, string, bytes, duration, timestamp, type, list, map, optional, error and unknown.  Not: messages, JSON- or proto-backed lists and maps, other opaque values, legacy values.
* `M_Attr`, `M_Logic`: `base/attribute*.h`, `attribute_trail`, `attribute_utility.cc`, `logic_step.cc`.  Not: function result sets, missing attributes.
* `M_Expr`: the AST, options, overload matching, and the non-control steps.  Not: message construction, namespace constants, enum and type identifiers, the reserved `@it:`/`@ac:` names of common subexpression elimination.
* `M_Plan`, `M_Machine`: slot allocation, code generation and the step machine.  Not: `cel.@block`, the list-append and mutable-map optimisations, lazy function providers at call time, the `int` limit of jump offsets, listeners and tracing, constant folding and other optimisers.
* `M_Direct`: the recursive planner and evaluator, same exclusions.
* `M_Signature`: all of `common/signature.cc` except the conversion of `cel::Type` to a type spec.
* `M_Activation`: variables, providers, the mutex, and moves. Not: the functions of an activation, the weak memory model (no races, so not needed).
* `M_Fold`: constant folding. Not: the choice of arena and message factory, `cel.@block`, struct and optional entries.
* `M_Policy`: `CheckMatchStructure`, `IsExhaustive`, `FirstMatchComposer`, `Unnester`, from the checked policy on. Not: parsing of policies, type checking, explanations, ids and positions, evaluation of `cel.@block` itself (its list is read as bindings evaluated when referred to).
* `M_StrExt`: `Contains`, `StartsWith`, `EndsWith`, `IndexOf`, `LastIndexOf`, `Substring`, `CharAt`, `LowerAscii`, `UpperAscii`, `Trim`, `Quote`, `Reverse`, `Join`, `Split`, `Replace` on the two kinds of representation (small and medium strings are both contiguous), `ByteString::Find`. Not: ownership of the results, `format`.
* `M_Checker`: the visitor of `checker/internal/type_checker_impl.cc` and the operators of `checker/standard_library.cc`.  Not: containers and dotted names, message construction, `cel.@block`, references and warnings, the limits on nodes and issues.
* `M_RefCount`: the reference counts of `common/internal/reference_count.h`.  Not: weak memory orders (interleaving is sequentially consistent), the debug checks, the destructors that Finalize runs.
* `M_Lex`, `M_Parse`: the token rules and the grammar of `parser/internal/Cel.g4` as a lexer (longest match) and a recursive descent parser, with the visitor functions of `parser/parser.cc` that build the expression, expand macros and balance chains; any error gives no expression.  Not: ANTLR itself (its choices for ambiguous rules are made explicit), message construction, recursion and size limits, error recovery and messages, ids and positions.  `absl::SimpleAtod` is a parameter.
* `M_Unparse`: the visitor of `tools/cel_unparser.cc`.  Not: the recorded macro calls of the source info (the expressions are printed from the expanded form), messages.  `StrCat(double)` is a parameter.
* `M_ByteString`: construction (from views, strings, Cords, borrowed and external memory), copy, move, assignment, swap, `Substring`, `RemovePrefix`, `RemoveSuffix`, `ToCord` (both), `AppendToCord`, `Concat`, `Clone`, `ToString`, destruction of `common/internal/byte_string.cc`, with the debug checks.  Not: comparison, search and hashing (searches are in `M_StrExt`), `LegacyByteString`, `ByteStringView`, overflow of the counts.
* `M_Format`: all of `extensions/formatting.cc`; the digits of doubles (`StrAppend`, `StrFormat` of `%f`, `%e`) and the text of timestamps are parameters.
* `M_Ast`: the expression tree of `common/expr.h` with unset children, `common/ast_traverse.cc`, `common/navigable_ast.cc` and `common/ast/navigable_ast_internal.h`; not addresses (`FindExpr`), iterators as lists.
* `M_Rewrite`: all of `common/ast_rewrite.cc`; pointers are places (ways down from the root), reading a place that is not there is undefined behaviour.
* `M_AstProto`: `common/ast/expr_proto.cc`, `constant_proto.cc`, `source_info_proto.cc`, `common/ast_proto.cc`, `internal/proto_time_encoding.cc`, and `operator==` and copies of `common/expr.h`, `common/ast/metadata.*`.  The stack of frames is replaced by recursion; messages are trees; not: serialisation, unknown fields, error texts, durations of less than a nanosecond.
* `M_Vulnerable`: `eval/compiler/comprehension_vulnerability_check.cc` on the expressions of `M_Expr` (no message literals); three registered functions that return their operands.
* `M_Decl`: `common/decl.cc`, `common/decl.h` (overloads of a function), `common/type_spec_resolver.cc`, `Type::Message` and `Type::Enum` of `common/type.cc`, and the functions of `common/signature.cc` that take or give a `Type`. Descriptors are their names; hash maps are association lists; lifetimes on arenas are not modelled.
* `M_Optional`: `runtime/optional_types.cc` and `IsZeroValue` of all kinds of values except messages.
* `M_Convert`: `runtime/standard/type_conversion_functions.cc` (except `type`), the accessors of `runtime/standard/time_functions.cc`, `EncodeDurationToJson` and `EncodeTimestampToJson` of `internal/time.cc`, `internal/proto_time_encoding.cc`. `M_Civil` is a reading of the functions of Abseil they call (`SimpleAtoi`, `ParseDuration`, `ParseTime`, `FormatTime`, civil time), whose source is not in the repository: it is part of the trusted base. Durations and times are whole nanoseconds. Doubles to and from texts and the database of time zones are parameters.
* `M_Json`: the `ConvertToJson` functions of `common/values`, `parsed_json_value.cc`, `JsonEquals` of `internal/json.cc`, the setters of `internal/well_known_types.cc`, `eval/public/value_export_util.cc` (except messages), `extensions/encoders.cc`. `absl::Base64Escape`, `absl::Base64Unescape` and `TimeUtil::ToString` are readings of libraries whose source is not in the repository: part of the trusted base.
* `M_Compare`: `eval/public/set_util.cc`: the order of legacy values. An error is its address and its status; messages and unknowns are their addresses, and the sorted copy of the entries of a map is an insertion sort. Not modelled: a list or map whose `Get` or `ListKeys` fails.
* `M_Validator`: `validator/*.cc` on the navigable tree of `M_Ast`; whether RE2 accepts a pattern is a parameter. An issue is a severity, the id of an expression and what is wrong; its text and position are left out.
* `M_TypeMask`: `checker/internal/{field_path.h,proto_type_mask.cc,proto_type_mask_registry.cc}` and the parts of `type_checker_builder_impl.cc` and `type_check_env.{h,cc}` that collect masks, declare variables of context types and look fields up. The descriptor pool is a list of messages and the only type provider; extensions, functions and plain variables are left out.
* `M_RegexExt`: `extensions/regex_ext.cc` over texts of bytes. A compiled RE2 pattern is a number of groups and a function that finds the leftmost match from a position on; theorems assume of it that matches and groups lie in the text. `RE2::CheckRewriteString`, `RE2::Rewrite` and `RE2::GlobalReplace` are trusted readings of RE2 (after an empty match that it skips, GlobalReplace advances by one byte instead of one code point). Registration and declarations of the functions are left out.
* `M_Macros`: `parser/macro.cc` (keys and constructors), `parser/macro_registry.cc`, and the builder in `parser/parser.cc`. Not modelled: expanders (see `M_Macro`), empty expanders, options other than the two for macros, configure functions that do more than add macros.
* `M_Resolve`: `eval/compiler/qualified_reference_resolver.cc`. References are their name, value and whether they list overloads; issues are their text without the function name. Not modelled: other fields of references, the runtime issue codes.
* `M_TypeName`: `common/format_type_name.cc`. Types are their kind, name and parameters.
* `M_EnumTable`: `RegisterEnum` and `GetEnumValueTable` of `runtime/type_registry.cc`. A critical section is one step, and the write of `RegisterEnum` outside the lock is one step. Not modelled: type providers.
* `M_Config`: `env/config.cc` and `ShouldIncludeMacro`, `ShouldIncludeFunction` of `env/env.cc`. Not modelled: container configuration, conversion of types, extensions' registry, YAML.
* `M_Registry`: `runtime/function_registry.cc`.
* `M_Macro`: `parser/macro.cc`, `comprehensions_v2_macros.cc`, `bindings_ext.cc`, optional macros.  Expression ids and positions are left out.
* `M_Balancer`: `ExpressionBalancer` of `parser/parser.cc`.
* `M_Namespace`: `common/container.cc`, `internal/lexis.cc`, `namespace_generator.cc`, function and identifier lookup of `eval/compiler/resolver.cc`.
* `M_Infer`: `checker/internal/type_inference_context.cc` and the typing of list and map literals in `type_checker_impl.cc`.  Not: names of fresh variables for display, overflow of the 64-bit variable counter, optional entries of literals.
* `M_Ext`, `M_Math`: `sets_functions.cc`, `lists_functions.cc`, `math_ext.cc`, `math_ext_macros.cc`.  Not: ceil, floor, round, trunc, sqrt, isInf, isNaN, isFinite (C library calls).

## Not modelled

Protocol buffer messages and descriptors, JSON/Any conversion, arenas and
memory management, regular expressions (RE2), the ANTLR grammar, time zone
and calendar computations, legacy `CelValue` APIs, flatbuffers and tools.

## Trusted base

* The Rocq kernel (and `vm_compute`, used for the concrete counterexamples).
* No axioms: `Print Assumptions` reports `Closed under the global context`
  for every property theorem, as listed below.
* The transcription of C++ into Gallina, as documented in the comments, and
  the assumption that the host's `double` is IEEE-754 binary64.

## Theorems

<!-- theorem list, generated by tools/gen_design.py -->

| theorem | file | Print Assumptions |
|---|---|---|
| `C01_int_arithmetic_exact_or_error` | `P_Num.v` | Closed under the global context |
| `C01_int_div_mod` | `P_Num.v` | Closed under the global context |
| `C01_mod_min_by_minus_one_is_error` | `P_Num.v` | Closed under the global context |
| `C01_uint_arithmetic_exact_or_error` | `P_Num.v` | Closed under the global context |
| `C01_uint_div_mod` | `P_Num.v` | Closed under the global context |
| `C02_int_division_law` | `P_Num.v` | Closed under the global context |
| `C02_uint_division_law` | `P_Num.v` | Closed under the global context |
| `C03_comparison_matches_order_partial` | `P_Num.v` | Closed under the global context |
| `C03_comparison_matches_order_refuted` | `P_Num.v` | Closed under the global context |
| `C03_comparison_never_reversed` | `P_Num.v` | Closed under the global context |
| `C04_comparison_operators_consistent` | `P_Num.v` | Closed under the global context |
| `C04_less_than_transitive` | `P_Order.v` | Closed under the global context |
| `C05_numeric_equality_reflexive_symmetric` | `P_Num.v` | Closed under the global context |
| `C05_numeric_equality_transitive_partial` | `P_Num.v` | Closed under the global context |
| `C05_numeric_equality_transitive_refuted` | `P_Num.v` | Closed under the global context |
| `C06_double_to_int` | `P_Num.v` | Closed under the global context |
| `C06_double_to_uint` | `P_Num.v` | Closed under the global context |
| `C06_int_uint_conversions` | `P_Num.v` | Closed under the global context |
| `C06_int_uint_round_trip` | `P_Num.v` | Closed under the global context |
| `C07_lossless_to_int` | `P_Num.v` | Closed under the global context |
| `C07_lossless_to_uint` | `P_Num.v` | Closed under the global context |
| `C08_add_then_subtract_partial` | `P_Num.v` | Closed under the global context |
| `C08_duration_accessors` | `P_Num.v` | Closed under the global context |
| `C08_duration_arithmetic_partial` | `P_Num.v` | Closed under the global context |
| `C08_duration_arithmetic_refuted` | `P_Num.v` | Closed under the global context |
| `C08_timestamp_difference_partial` | `P_Num.v` | Closed under the global context |
| `C08_timestamp_minus_duration_partial` | `P_Num.v` | Closed under the global context |
| `C08_timestamp_minus_duration_refuted` | `P_Num.v` | Closed under the global context |
| `C08_timestamp_plus_duration` | `P_Num.v` | Closed under the global context |
| `C08_unchecked_exact` | `P_Num.v` | Closed under the global context |
| `C08_unchecked_range_refuted` | `P_Num.v` | Closed under the global context |
| `C09_decode_cord` | `P_Str.v` | Closed under the global context |
| `C09_decode_encode` | `P_Str.v` | Closed under the global context |
| `C09_decode_total` | `P_Str.v` | Closed under the global context |
| `C09_encode_invalid` | `P_Str.v` | Closed under the global context |
| `C100_chain` | `P_Optional.v` | Closed under the global context |
| `C100_read_back` | `P_Optional.v` | Closed under the global context |
| `C100_select_map` | `P_Optional.v` | Closed under the global context |
| `C101_non_zero` | `P_Optional.v` | Closed under the global context |
| `C101_or_default` | `P_Optional.v` | Closed under the global context |
| `C101_zero_meaning` | `P_Optional.v` | Closed under the global context |
| `C102_ends` | `P_Optional.v` | Closed under the global context |
| `C102_laws` | `P_Optional.v` | Closed under the global context |
| `C102_no_error_inside` | `P_Optional.v` | Closed under the global context |
| `C102_unwrap` | `P_Optional.v` | Closed under the global context |
| `C103_all_or_none_refuted` | `P_Optional.v` | Closed under the global context |
| `C103_enable` | `P_Optional.v` | Closed under the global context |
| `C103_once` | `P_Optional.v` | Closed under the global context |
| `C104_bool_accepts` | `P_Convert.v` | Closed under the global context |
| `C104_bytes` | `P_Convert.v` | Closed under the global context |
| `C104_int_accepts` | `P_Convert.v` | Closed under the global context |
| `C104_read_back` | `P_Convert.v` | Closed under the global context |
| `C104_twice_partial` | `P_Convert.v` | Closed under the global context |
| `C104_twice_refuted` | `P_Convert.v` | Closed under the global context |
| `C104_uint_accepts` | `P_Convert.v` | Closed under the global context |
| `C105_accessors` | `P_Convert2.v` | Closed under the global context |
| `C105_literal_partial` | `P_Convert2.v` | Closed under the global context |
| `C105_literal_refuted` | `P_Convert2.v` | Closed under the global context |
| `C105_only_literals` | `P_Convert2.v` | Closed under the global context |
| `C105_print_range` | `P_Convert2.v` | Closed under the global context |
| `C105_read_back` | `P_Convert.v` | Closed under the global context |
| `C106_only_rfc3339_refuted` | `P_Convert2.v` | Closed under the global context |
| `C106_range_partial` | `P_Convert2.v` | Closed under the global context |
| `C106_range_refuted` | `P_Convert2.v` | Closed under the global context |
| `C106_read_back` | `P_Convert2.v` | Closed under the global context |
| `C106_rfc3339` | `P_Convert2.v` | Closed under the global context |
| `C106_seconds` | `P_Convert2.v` | Closed under the global context |
| `C107_calendar` | `P_Convert2.v` | Closed under the global context |
| `C107_days` | `P_Convert2.v` | Closed under the global context |
| `C107_fields` | `P_Convert2.v` | Closed under the global context |
| `C107_zone_partial` | `P_Convert2.v` | Closed under the global context |
| `C107_zone_refuted` | `P_Convert2.v` | Closed under the global context |
| `C108_duration` | `P_Convert2.v` | Closed under the global context |
| `C108_duration_messages` | `P_Convert2.v` | Closed under the global context |
| `C108_timestamp` | `P_Convert2.v` | Closed under the global context |
| `C108_timestamp_messages` | `P_Convert2.v` | Closed under the global context |
| `C109_from_json` | `P_Json.v` | Closed under the global context |
| `C109_infinite_refuted` | `P_Json.v` | Closed under the global context |
| `C109_json` | `P_Json.v` | Closed under the global context |
| `C109_refused` | `P_Json.v` | Closed under the global context |
| `C109_round_trip_partial` | `P_Json.v` | Closed under the global context |
| `C109_round_trip_refuted` | `P_Json.v` | Closed under the global context |
| `C10_cord_count_is_length` | `P_Str.v` | Closed under the global context |
| `C10_cord_valid_iff_well_formed` | `P_Str.v` | Closed under the global context |
| `C10_count_is_length` | `P_Str.v` | Closed under the global context |
| `C10_count_malformed` | `P_Str.v` | Closed under the global context |
| `C10_valid_iff_well_formed` | `P_Str.v` | Closed under the global context |
| `C10_validate_prefix` | `P_Str.v` | Closed under the global context |
| `C110_equality` | `P_Json.v` | Closed under the global context |
| `C110_equivalence` | `P_Json.v` | Closed under the global context |
| `C110_nan_refuted` | `P_Json.v` | Closed under the global context |
| `C110_transitive` | `P_Json.v` | Closed under the global context |
| `C111_canonical_refuted` | `P_Json.v` | Closed under the global context |
| `C111_decode` | `P_Json.v` | Closed under the global context |
| `C111_encode` | `P_Json.v` | Closed under the global context |
| `C112_agrees` | `P_Json.v` | Closed under the global context |
| `C112_export_partial` | `P_Json.v` | Closed under the global context |
| `C112_integers_refuted` | `P_Json.v` | Closed under the global context |
| `C112_keys_refuted` | `P_Json.v` | Closed under the global context |
| `C112_refused` | `P_Json.v` | Closed under the global context |
| `C113_errors_refuted` | `P_Compare.v` | Closed under the global context |
| `C113_nan_refuted` | `P_Compare.v` | Closed under the global context |
| `C113_order` | `P_Compare.v` | Closed under the global context |
| `C113_total` | `P_Compare.v` | Closed under the global context |
| `C113_transitive_partial` | `P_Compare.v` | Closed under the global context |
| `C114_all` | `P_Validator.v` | Closed under the global context |
| `C114_depth` | `P_Validator.v` | Closed under the global context |
| `C114_nesting` | `P_Validator.v` | Closed under the global context |
| `C114_update` | `P_Validator.v` | Closed under the global context |
| `C115_accepted` | `P_Validator.v` | Closed under the global context |
| `C115_literals` | `P_Validator.v` | Closed under the global context |
| `C116_equivalence` | `P_Validator.v` | Closed under the global context |
| `C116_error_refuted` | `P_Validator.v` | Closed under the global context |
| `C116_homogeneous_partial` | `P_Validator.v` | Closed under the global context |
| `C116_parameter_refuted` | `P_Validator.v` | Closed under the global context |
| `C116_types` | `P_Validator.v` | Closed under the global context |
| `C117_patterns` | `P_Validator.v` | Closed under the global context |
| `C118_accepted` | `P_TypeMask.v` | Closed under the global context |
| `C118_order` | `P_TypeMask.v` | Closed under the global context |
| `C118_paths` | `P_TypeMask.v` | Closed under the global context |
| `C118_visible` | `P_TypeMask.v` | Closed under the global context |
| `C119_json_refuted` | `P_TypeMask.v` | Closed under the global context |
| `C119_library_refuted` | `P_TypeMask.v` | Closed under the global context |
| `C119_refused_refuted` | `P_TypeMask.v` | Closed under the global context |
| `C119_select_partial` | `P_TypeMask.v` | Closed under the global context |
| `C119_variables` | `P_TypeMask.v` | Closed under the global context |
| `C11_escape_round_trip` | `P_Str.v` | Closed under the global context |
| `C11_string_literal_round_trip` | `P_Str.v` | Closed under the global context |
| `C120_all_partial` | `P_RegexExt.v` | Closed under the global context |
| `C120_anchor_refuted` | `P_RegexExt.v` | Closed under the global context |
| `C120_errors` | `P_RegexExt.v` | Closed under the global context |
| `C120_first` | `P_RegexExt.v` | Closed under the global context |
| `C120_matches_exist` | `P_RegexExt.v` | Closed under the global context |
| `C120_pieces` | `P_RegexExt.v` | Closed under the global context |
| `C121_all` | `P_RegexExt.v` | Closed under the global context |
| `C121_all_ends` | `P_RegexExt.v` | Closed under the global context |
| `C121_anchor_refuted` | `P_RegexExt.v` | Closed under the global context |
| `C121_count_partial` | `P_RegexExt.v` | Closed under the global context |
| `C121_empty_refuted` | `P_RegexExt.v` | Closed under the global context |
| `C121_enough_partial` | `P_RegexExt.v` | Closed under the global context |
| `C121_overflow_refuted` | `P_RegexExt.v` | Closed under the global context |
| `C122_no_internal` | `P_RegexExt.v` | Closed under the global context |
| `C122_replacement` | `P_RegexExt.v` | Closed under the global context |
| `C122_zero_refuted` | `P_RegexExt.v` | Closed under the global context |
| `C123_history` | `P_Macros.v` | Closed under the global context |
| `C123_key` | `P_Macros.v` | Closed under the global context |
| `C123_refused` | `P_Macros.v` | Closed under the global context |
| `C124_build` | `P_Macros.v` | Closed under the global context |
| `C124_libraries` | `P_Macros.v` | Closed under the global context |
| `C124_rebuild` | `P_Macros.v` | Closed under the global context |
| `C125_call_partial` | `P_Resolve.v` | Closed under the global context |
| `C125_reserved` | `P_Resolve.v` | Closed under the global context |
| `C125_root` | `P_Resolve.v` | Closed under the global context |
| `C125_twice_refuted` | `P_Resolve.v` | Closed under the global context |
| `C126_constant` | `P_Resolve.v` | Closed under the global context |
| `C126_function` | `P_Resolve.v` | Closed under the global context |
| `C126_global` | `P_Resolve.v` | Closed under the global context |
| `C126_method` | `P_Resolve.v` | Closed under the global context |
| `C126_method_found` | `P_Resolve.v` | Closed under the global context |
| `C126_name` | `P_Resolve.v` | Closed under the global context |
| `C126_receiver_partial` | `P_Resolve.v` | Closed under the global context |
| `C126_receiver_refuted` | `P_Resolve.v` | Closed under the global context |
| `C126_status` | `P_Resolve.v` | Closed under the global context |
| `C126_total` | `P_Resolve.v` | Closed under the global context |
| `C127_distinct_partial` | `P_TypeName.v` | Closed under the global context |
| `C127_distinct_refuted` | `P_TypeName.v` | Closed under the global context |
| `C127_text` | `P_TypeName.v` | Closed under the global context |
| `C128_dots_refuted` | `P_EnumTable.v` | Closed under the global context |
| `C128_overlap_refuted` | `P_EnumTable.v` | Closed under the global context |
| `C128_shared` | `P_EnumTable.v` | Closed under the global context |
| `C128_table_partial` | `P_EnumTable.v` | Closed under the global context |
| `C129_accepts` | `P_Config.v` | Closed under the global context |
| `C129_consistent` | `P_Config.v` | Closed under the global context |
| `C129_subset` | `P_Config.v` | Closed under the global context |
| `C12_bytes_literal_round_trip` | `P_Str.v` | Closed under the global context |
| `C12_escape_round_trip` | `P_Str.v` | Closed under the global context |
| `C13_malformed_rejected` | `P_Str.v` | Closed under the global context |
| `C13_positions` | `P_Str.v` | Closed under the global context |
| `C13_snippet` | `P_Str.v` | Closed under the global context |
| `C13_source_content` | `P_Str.v` | Closed under the global context |
| `C14_equality_reflexive` | `P_Val.v` | Closed under the global context |
| `C14_nan_not_equal` | `P_Val.v` | Closed under the global context |
| `C15_contains_equality_symmetric_partial` | `P_Val.v` | Closed under the global context |
| `C15_equality_symmetric_partial` | `P_Val.v` | Closed under the global context |
| `C15_equality_symmetric_refuted` | `P_Val.v` | Closed under the global context |
| `C16_map_build` | `P_Val.v` | Closed under the global context |
| `C17_in_list_partial` | `P_Val.v` | Closed under the global context |
| `C17_in_list_refuted` | `P_Val.v` | Closed under the global context |
| `C17_in_list_sound` | `P_Val.v` | Closed under the global context |
| `C18_in_map_and_index` | `P_Val.v` | Closed under the global context |
| `C18_list_index` | `P_Val.v` | Closed under the global context |
| `C18_registered_in_map_partial` | `P_Val.v` | Closed under the global context |
| `C18_registered_in_map_refuted` | `P_Val.v` | Closed under the global context |
| `C18_registered_in_map_uint_partial` | `P_Val.v` | Closed under the global context |
| `C19_and` | `P_Logic.v` | Closed under the global context |
| `C19_commute` | `P_Logic.v` | Closed under the global context |
| `C19_de_morgan` | `P_Logic.v` | Closed under the global context |
| `C19_direct_agrees` | `P_Logic.v` | Closed under the global context |
| `C19_not_strictly_false` | `P_Logic.v` | Closed under the global context |
| `C19_or` | `P_Logic.v` | Closed under the global context |
| `C19_undecided` | `P_Logic.v` | Closed under the global context |
| `C20_bind_refuted` | `P_Short.v` | Closed under the global context |
| `C20_custom_loop_refuted` | `P_Short.v` | Closed under the global context |
| `C20_error_name_refuted` | `P_Short.v` | Closed under the global context |
| `C20_macros` | `P_Short.v` | Closed under the global context |
| `C20_same_result_partial` | `P_Short.v` | Closed under the global context |
| `C20_same_result_syntax_partial` | `P_Short.v` | Closed under the global context |
| `C20_unknown_value_refuted` | `P_Short.v` | Closed under the global context |
| `C21_plan_correct_partial` | `P_Eval.v` | Closed under the global context |
| `C21_plan_correct_slots_apart_partial` | `P_Eval.v` | Closed under the global context |
| `C21_refuted` | `P_Eval.v` | Closed under the global context |
| `C22_bind_refuted` | `P_Direct.v` | Closed under the global context |
| `C22_has_optional_refuted` | `P_Direct.v` | Closed under the global context |
| `C22_loop_step_refuted` | `P_Direct.v` | Closed under the global context |
| `C22_macros` | `P_Direct.v` | Closed under the global context |
| `C22_map_literal_refuted` | `P_Direct.v` | Closed under the global context |
| `C22_programs_agree_partial` | `P_Direct.v` | Closed under the global context |
| `C22_programs_agree_slots_apart_partial` | `P_Direct.v` | Closed under the global context |
| `C22_recursive_meaning_partial` | `P_Direct.v` | Closed under the global context |
| `C22_unknown_key_refuted` | `P_Direct.v` | Closed under the global context |
| `C22_unknown_trail_refuted` | `P_Direct.v` | Closed under the global context |
| `C23_evaluation_well_behaved` | `P_Eval.v` | Closed under the global context |
| `C24_iteration_budget` | `P_Eval.v` | Closed under the global context |
| `C24_no_limit` | `P_Eval.v` | Closed under the global context |
| `C25_lexical_scope_partial` | `P_Eval.v` | Closed under the global context |
| `C25_refuted` | `P_Eval.v` | Closed under the global context |
| `C25_siblings_unaffected_partial` | `P_Eval.v` | Closed under the global context |
| `C26_all` | `P_Macro.v` | Closed under the global context |
| `C26_bad_range` | `P_Macro.v` | Closed under the global context |
| `C26_exists` | `P_Macro.v` | Closed under the global context |
| `C26_exists_one` | `P_Macro.v` | Closed under the global context |
| `C26_expansions` | `P_Macro.v` | Closed under the global context |
| `C26_filter` | `P_Macro.v` | Closed under the global context |
| `C26_map` | `P_Macro.v` | Closed under the global context |
| `C26_map_where` | `P_Macro.v` | Closed under the global context |
| `C26_run_partial` | `P_Macro.v` | Closed under the global context |
| `C27_calls_end_to_end` | `P_Func.v` | Closed under the global context |
| `C27_invocations_proper` | `P_Func.v` | Closed under the global context |
| `C27_one_call` | `P_Func.v` | Closed under the global context |
| `C28_at_most_one_overload` | `P_Func.v` | Closed under the global context |
| `C28_order_independent` | `P_Func.v` | Closed under the global context |
| `C28_rejection` | `P_Func.v` | Closed under the global context |
| `C29_initialised_at_most_once` | `P_Eval.v` | Closed under the global context |
| `C29_means_substitution_partial` | `P_Eval.v` | Closed under the global context |
| `C29_refuted` | `P_Eval.v` | Closed under the global context |
| `C30_extension_keeps_full` | `P_Logic.v` | Closed under the global context |
| `C30_full_match` | `P_Logic.v` | Closed under the global context |
| `C30_partial_match` | `P_Logic.v` | Closed under the global context |
| `C30_several_patterns` | `P_Logic.v` | Closed under the global context |
| `C31_aggregate_unknowns_partial` | `P_Logic.v` | Closed under the global context |
| `C31_call_unknowns_partial` | `P_Logic.v` | Closed under the global context |
| `C31_merge_is_union_partial` | `P_Logic.v` | Closed under the global context |
| `C31_merge_refuted` | `P_Logic.v` | Closed under the global context |
| `C31_sets_well_formed_partial` | `P_Logic.v` | Closed under the global context |
| `C32_completion_partial` | `P_Partial.v` | Closed under the global context |
| `C32_container_refuted` | `P_Partial.v` | Closed under the global context |
| `C32_decision_partial` | `P_Partial.v` | Closed under the global context |
| `C32_exhaustive_refuted` | `P_Partial.v` | Closed under the global context |
| `C32_not_strictly_false_refuted` | `P_Partial.v` | Closed under the global context |
| `C32_number_refuted` | `P_Partial.v` | Closed under the global context |
| `C32_optional_refuted` | `P_Partial.v` | Closed under the global context |
| `C32_same_program` | `P_Partial.v` | Closed under the global context |
| `C32_scalar_partial` | `P_Partial.v` | Closed under the global context |
| `C32_status_refuted` | `P_Partial.v` | Closed under the global context |
| `C33_error_choice` | `P_Balance.v` | Closed under the global context |
| `C33_evaluation` | `P_Balance.v` | Closed under the global context |
| `C33_evaluation_any` | `P_Balance.v` | Closed under the global context |
| `C33_tree` | `P_Balance.v` | Closed under the global context |
| `C33_variadic` | `P_Balance.v` | Closed under the global context |
| `C34_alias` | `P_Names.v` | Closed under the global context |
| `C34_containers` | `P_Names.v` | Closed under the global context |
| `C34_once` | `P_Names.v` | Closed under the global context |
| `C34_qualified` | `P_Names.v` | Closed under the global context |
| `C34_qualified_alias` | `P_Names.v` | Closed under the global context |
| `C34_qualified_root` | `P_Names.v` | Closed under the global context |
| `C34_root` | `P_Names.v` | Closed under the global context |
| `C34_runtime` | `P_Names.v` | Closed under the global context |
| `C35_acyclic` | `P_Infer.v` | Closed under the global context |
| `C35_check_terminates` | `P_Infer.v` | Closed under the global context |
| `C35_overlapping_contexts_cycle` | `P_Infer.v` | Closed under the global context |
| `C35_substitution_terminates` | `P_Infer.v` | Closed under the global context |
| `C35_terminates` | `P_Infer.v` | Closed under the global context |
| `C36_bindings_stay` | `P_Infer.v` | Closed under the global context |
| `C36_collected_refuted` | `P_Infer.v` | Closed under the global context |
| `C36_dyn_any` | `P_Infer.v` | Closed under the global context |
| `C36_ground` | `P_Infer.v` | Closed under the global context |
| `C36_list_literal_refuted` | `P_Infer.v` | Closed under the global context |
| `C36_plain_equal_partial` | `P_Infer.v` | Closed under the global context |
| `C36_plain_most_general_partial` | `P_Infer.v` | Closed under the global context |
| `C36_plain_refused_partial` | `P_Infer.v` | Closed under the global context |
| `C36_reflexive` | `P_Infer.v` | Closed under the global context |
| `C36_refused_unchanged` | `P_Infer.v` | Closed under the global context |
| `C36_success_refuted` | `P_Infer.v` | Closed under the global context |
| `C37_contains` | `P_Sets.v` | Closed under the global context |
| `C37_contains_operator_partial` | `P_Sets.v` | Closed under the global context |
| `C37_contains_operator_refuted` | `P_Sets.v` | Closed under the global context |
| `C37_equivalence` | `P_Sets.v` | Closed under the global context |
| `C37_equivalence_refuted` | `P_Sets.v` | Closed under the global context |
| `C37_equivalent` | `P_Sets.v` | Closed under the global context |
| `C37_intersects` | `P_Sets.v` | Closed under the global context |
| `C37_intersects_symmetric` | `P_Sets.v` | Closed under the global context |
| `C38_distinct` | `P_Lists.v` | Closed under the global context |
| `C38_distinct_first` | `P_Lists.v` | Closed under the global context |
| `C38_distinct_first_refuted` | `P_Lists.v` | Closed under the global context |
| `C38_flatten` | `P_Lists.v` | Closed under the global context |
| `C38_flatten_idempotent` | `P_Lists.v` | Closed under the global context |
| `C38_range` | `P_Lists.v` | Closed under the global context |
| `C38_range_negative_refuted` | `P_Lists.v` | Closed under the global context |
| `C38_reverse` | `P_Lists.v` | Closed under the global context |
| `C38_slice` | `P_Lists.v` | Closed under the global context |
| `C38_sort` | `P_Lists.v` | Closed under the global context |
| `C38_sort_by_keys` | `P_Lists.v` | Closed under the global context |
| `C38_sort_errors` | `P_Lists.v` | Closed under the global context |
| `C38_sort_nan_refuted` | `P_Lists.v` | Closed under the global context |
| `C39_abs` | `P_Math.v` | Closed under the global context |
| `C39_abs_double` | `P_Math.v` | Closed under the global context |
| `C39_bit_not` | `P_Math.v` | Closed under the global context |
| `C39_bit_operations` | `P_Math.v` | Closed under the global context |
| `C39_few_arguments` | `P_Math.v` | Closed under the global context |
| `C39_greatest` | `P_Math.v` | Closed under the global context |
| `C39_least` | `P_Math.v` | Closed under the global context |
| `C39_pick_errors` | `P_Math.v` | Closed under the global context |
| `C39_shifts` | `P_Math.v` | Closed under the global context |
| `C39_sign` | `P_Math.v` | Closed under the global context |
| `C40_parsed_strings_well_formed` | `P_Str.v` | Closed under the global context |
| `C41_bytes_escapes` | `P_Str.v` | Closed under the global context |
| `C41_quoted_literal` | `P_Str.v` | Closed under the global context |
| `C41_string_escapes` | `P_Str.v` | Closed under the global context |
| `C42_cord_count_refuted` | `P_Str.v` | Closed under the global context |
| `C42_cord_validate_agrees_partial` | `P_Str.v` | Closed under the global context |
| `C43_largest_source_refuted` | `P_Str.v` | Closed under the global context |
| `C43_source_size_partial` | `P_Str.v` | Closed under the global context |
| `C44_contains_equality_meaning` | `P_Val.v` | Closed under the global context |
| `C44_equality_meaning_partial` | `P_Val.v` | Closed under the global context |
| `C44_equality_meaning_refuted` | `P_Val.v` | Closed under the global context |
| `C44_equality_total` | `P_Val.v` | Closed under the global context |
| `C45_optional_holds_error_refuted` | `P_Val.v` | Closed under the global context |
| `C45_optional_index_partial` | `P_Val.v` | Closed under the global context |
| `C46_all` | `P_Macro2.v` | Closed under the global context |
| `C46_exists` | `P_Macro2.v` | Closed under the global context |
| `C46_exists_one` | `P_Macro2.v` | Closed under the global context |
| `C46_expansions` | `P_Macro2.v` | Closed under the global context |
| `C46_transform_list` | `P_Macro2.v` | Closed under the global context |
| `C46_transform_list_where` | `P_Macro2.v` | Closed under the global context |
| `C46_transform_map` | `P_Macro2.v` | Closed under the global context |
| `C46_transform_map_entry` | `P_Macro2.v` | Closed under the global context |
| `C46_transform_map_entry_where` | `P_Macro2.v` | Closed under the global context |
| `C46_transform_map_of_map` | `P_Macro2.v` | Closed under the global context |
| `C46_transform_map_where` | `P_Macro2.v` | Closed under the global context |
| `C47_error_operand` | `P_Macro2.v` | Closed under the global context |
| `C47_opt_flat_map` | `P_Macro2.v` | Closed under the global context |
| `C47_opt_map` | `P_Macro2.v` | Closed under the global context |
| `C48_abbreviation` | `P_Names.v` | Closed under the global context |
| `C48_add_alias` | `P_Names.v` | Closed under the global context |
| `C48_identifier` | `P_Names.v` | Closed under the global context |
| `C48_set_container` | `P_Names.v` | Closed under the global context |
| `C48_well_formed` | `P_Names.v` | Closed under the global context |
| `C49_call_partial` | `P_Names.v` | Closed under the global context |
| `C49_lazy` | `P_Names.v` | Closed under the global context |
| `C49_lazy_hides_refuted` | `P_Names.v` | Closed under the global context |
| `C49_lazy_in_container_refuted` | `P_Names.v` | Closed under the global context |
| `C49_root_lazy` | `P_Names.v` | Closed under the global context |
| `C49_static` | `P_Names.v` | Closed under the global context |
| `C50_greatest` | `P_MathMacro.v` | Closed under the global context |
| `C50_least` | `P_MathMacro.v` | Closed under the global context |
| `C50_rejected` | `P_MathMacro.v` | Closed under the global context |
| `C51_empty_list` | `P_Literal.v` | Closed under the global context |
| `C51_list_partial` | `P_Literal.v` | Closed under the global context |
| `C51_map_partial` | `P_Literal.v` | Closed under the global context |
| `C51_map_widening_refuted` | `P_Literal.v` | Closed under the global context |
| `C52_accepted` | `P_Direct.v` | Closed under the global context |
| `C52_recursion_limit` | `P_Direct.v` | Closed under the global context |
| `C53_iteration_budget` | `P_Direct.v` | Closed under the global context |
| `C53_same_plan` | `P_Direct.v` | Closed under the global context |
| `C54_recursive_well_behaved` | `P_Direct.v` | Closed under the global context |
| `C55_overload_round_trip` | `P_Signature.v` | Closed under the global context |
| `C55_overload_total` | `P_Signature.v` | Closed under the global context |
| `C55_total` | `P_Signature.v` | Closed under the global context |
| `C55_type_round_trip` | `P_Signature.v` | Closed under the global context |
| `C55_white_space` | `P_Signature.v` | Closed under the global context |
| `C56_distinct_refuted` | `P_Signature.v` | Closed under the global context |
| `C56_overload_distinct_partial` | `P_Signature.v` | Closed under the global context |
| `C56_type_distinct_partial` | `P_Signature.v` | Closed under the global context |
| `C57_overload_stable_partial` | `P_Signature.v` | Closed under the global context |
| `C57_stable_refuted` | `P_Signature.v` | Closed under the global context |
| `C57_type_stable_partial` | `P_Signature.v` | Closed under the global context |
| `C58_agreement` | `P_Activation.v` | Closed under the global context |
| `C58_bindings` | `P_Activation.v` | Closed under the global context |
| `C58_no_overlap` | `P_Activation.v` | Closed under the global context |
| `C58_no_race` | `P_Activation.v` | Closed under the global context |
| `C58_progress_partial` | `P_Activation.v` | Closed under the global context |
| `C58_progress_refuted` | `P_Activation.v` | Closed under the global context |
| `C58_provider_calls` | `P_Activation.v` | Closed under the global context |
| `C58_provider_once` | `P_Activation.v` | Closed under the global context |
| `C58_results` | `P_Activation.v` | Closed under the global context |
| `C59_matcher_refuted` | `P_Activation.v` | Closed under the global context |
| `C59_move_partial` | `P_Activation.v` | Closed under the global context |
| `C60_arena_partial` | `P_Activation.v` | Closed under the global context |
| `C60_arena_refuted` | `P_Activation.v` | Closed under the global context |
| `C61_constant_expressions` | `P_Fold.v` | Closed under the global context |
| `C61_plan_time_run` | `P_Fold.v` | Closed under the global context |
| `C61_same_plans` | `P_Fold.v` | Closed under the global context |
| `C61_same_result` | `P_Fold.v` | Closed under the global context |
| `C62_accepts` | `P_Policy.v` | Closed under the global context |
| `C62_first_match` | `P_Policy.v` | Closed under the global context |
| `C62_optional` | `P_Policy.v` | Closed under the global context |
| `C63_refused` | `P_Policy.v` | Closed under the global context |
| `C63_unnesting` | `P_Policy.v` | Closed under the global context |
| `C64_height_limit_refuted` | `P_Policy.v` | Closed under the global context |
| `C64_height_partial` | `P_Policy.v` | Closed under the global context |
| `C64_variables_refuted` | `P_Policy.v` | Closed under the global context |
| `C65_conditions_refuted` | `P_Policy.v` | Closed under the global context |
| `C65_replacement_partial` | `P_Policy.v` | Closed under the global context |
| `C66_contains` | `P_StrExt.v` | Closed under the global context |
| `C66_index_of` | `P_StrExt.v` | Closed under the global context |
| `C66_index_of_from` | `P_StrExt.v` | Closed under the global context |
| `C66_last_index_of` | `P_StrExt.v` | Closed under the global context |
| `C66_last_index_of_from` | `P_StrExt.v` | Closed under the global context |
| `C67_char_at` | `P_StrExt.v` | Closed under the global context |
| `C67_substring_cord_refuted` | `P_StrExt.v` | Closed under the global context |
| `C67_substring_end_refuted` | `P_StrExt.v` | Closed under the global context |
| `C67_substring_from_partial` | `P_StrExt.v` | Closed under the global context |
| `C67_substring_partial` | `P_StrExt.v` | Closed under the global context |
| `C68_join` | `P_StrExt.v` | Closed under the global context |
| `C68_join_of_split` | `P_StrExt.v` | Closed under the global context |
| `C68_join_refuses` | `P_StrExt.v` | Closed under the global context |
| `C68_split` | `P_StrExt.v` | Closed under the global context |
| `C68_split_determined` | `P_StrExt.v` | Closed under the global context |
| `C69_replace` | `P_StrExt.v` | Closed under the global context |
| `C69_replace_same` | `P_StrExt.v` | Closed under the global context |
| `C70_case` | `P_StrExt.v` | Closed under the global context |
| `C70_quote` | `P_StrExt.v` | Closed under the global context |
| `C70_reverse` | `P_StrExt.v` | Closed under the global context |
| `C70_trim` | `P_StrExt.v` | Closed under the global context |
| `C71_accepted_is_well_typed_partial` | `P_Checker.v` | Closed under the global context |
| `C71_bound_select_refuted` | `P_Checker.v` | Closed under the global context |
| `C71_condition_scope_refuted` | `P_Checker.v` | Closed under the global context |
| `C71_first_overload_refuted` | `P_Checker.v` | Closed under the global context |
| `C71_loop_types_refuted` | `P_Checker.v` | Closed under the global context |
| `C71_nested_range_refuted` | `P_Checker.v` | Closed under the global context |
| `C72_checking_terminates` | `P_Checker.v` | Closed under the global context |
| `C73_undeclared_is_reported` | `P_Checker.v` | Closed under the global context |
| `C74_checked_program_partial` | `P_Typed.v` | Closed under the global context |
| `C74_dyn_refuted` | `P_Typed.v` | Closed under the global context |
| `C74_key_types_refuted` | `P_Typed.v` | Closed under the global context |
| `C74_optional_index_refuted` | `P_Typed.v` | Closed under the global context |
| `C74_well_typed_evaluation` | `P_Typed.v` | Closed under the global context |
| `C74_well_typed_program_partial` | `P_Typed.v` | Closed under the global context |
| `C75_alive_while_owned` | `P_RefCount.v` | Closed under the global context |
| `C75_expired_for_ever` | `P_RefCount.v` | Closed under the global context |
| `C75_limit_needed` | `P_RefCount.v` | Closed under the global context |
| `C75_never_undefined` | `P_RefCount.v` | Closed under the global context |
| `C75_nothing_leaks` | `P_RefCount.v` | Closed under the global context |
| `C75_strengthen` | `P_RefCount.v` | Closed under the global context |
| `C75_unique_expired` | `P_RefCount.v` | Closed under the global context |
| `C76_double_refuted` | `P_Unparse.v` | Closed under the global context |
| `C76_exact_partial` | `P_Unparse.v` | Closed under the global context |
| `C76_field_refuted` | `P_Unparse.v` | Closed under the global context |
| `C76_has_refuted` | `P_Unparse.v` | Closed under the global context |
| `C76_in_refuted` | `P_Unparse.v` | Closed under the global context |
| `C76_operators_refuted` | `P_Unparse.v` | Closed under the global context |
| `C76_postfix_refuted` | `P_Unparse.v` | Closed under the global context |
| `C76_round_trip_partial` | `P_Unparse.v` | Closed under the global context |
| `C76_sign_refuted` | `P_Unparse.v` | Closed under the global context |
| `C76_stable_partial` | `P_Unparse.v` | Closed under the global context |
| `C76_two_variables_refuted` | `P_Unparse.v` | Closed under the global context |
| `C77_grammar` | `P_Grammar.v` | Closed under the global context |
| `C77_left_grouping` | `P_Grammar.v` | Closed under the global context |
| `C77_logical` | `P_Grammar.v` | Closed under the global context |
| `C77_precedence` | `P_Grammar.v` | Closed under the global context |
| `C77_unambiguous` | `P_Grammar.v` | Closed under the global context |
| `C78_contents` | `P_ByteString.v` | Closed under the global context |
| `C78_debug_refuted` | `P_ByteString.v` | Closed under the global context |
| `C79_allocator_refuted` | `P_ByteString.v` | Closed under the global context |
| `C79_freed_once` | `P_ByteString.v` | Closed under the global context |
| `C79_not_early` | `P_ByteString.v` | Closed under the global context |
| `C80_format` | `P_Format.v` | Closed under the global context |
| `C80_total` | `P_Format.v` | Closed under the global context |
| `C81_injective` | `P_Format.v` | Closed under the global context |
| `C81_integer` | `P_Format.v` | Closed under the global context |
| `C82_order_partial` | `P_Format.v` | Closed under the global context |
| `C82_order_refuted` | `P_Format.v` | Closed under the global context |
| `C83_utf8_partial` | `P_Format.v` | Closed under the global context |
| `C83_utf8_refuted` | `P_Format.v` | Closed under the global context |
| `C84_order` | `P_Ast.v` | Closed under the global context |
| `C84_step` | `P_Ast.v` | Closed under the global context |
| `C84_terminates` | `P_Ast.v` | Closed under the global context |
| `C84_traverse` | `P_Ast.v` | Closed under the global context |
| `C85_build` | `P_Ast.v` | Closed under the global context |
| `C85_find` | `P_Ast.v` | Closed under the global context |
| `C85_preorder` | `P_Ast.v` | Closed under the global context |
| `C85_unique` | `P_Ast.v` | Closed under the global context |
| `C86_postorder_partial` | `P_Ast.v` | Closed under the global context |
| `C86_postorder_refuted` | `P_Ast.v` | Closed under the global context |
| `C86_relation_partial` | `P_Ast.v` | Closed under the global context |
| `C86_relation_refuted` | `P_Ast.v` | Closed under the global context |
| `C87_defined` | `P_Rewrite.v` | Closed under the global context |
| `C87_forever` | `P_Rewrite.v` | Closed under the global context |
| `C87_rewrite` | `P_Rewrite.v` | Closed under the global context |
| `C87_terminates` | `P_Rewrite.v` | Closed under the global context |
| `C88_bottom_up` | `P_Rewrite.v` | Closed under the global context |
| `C88_callbacks` | `P_Rewrite.v` | Closed under the global context |
| `C88_unchanged_partial` | `P_Rewrite.v` | Closed under the global context |
| `C88_unchanged_refuted` | `P_Rewrite.v` | Closed under the global context |
| `C89_defined` | `P_AstProto.v` | Closed under the global context |
| `C89_injective` | `P_AstProto.v` | Closed under the global context |
| `C89_message` | `P_AstProto.v` | Closed under the global context |
| `C89_roundtrip_partial` | `P_AstProto.v` | Closed under the global context |
| `C89_roundtrip_refuted` | `P_AstProto.v` | Closed under the global context |
| `C89_stable` | `P_AstProto.v` | Closed under the global context |
| `C90_copy_message` | `P_AstProto.v` | Closed under the global context |
| `C90_copy_partial` | `P_AstProto.v` | Closed under the global context |
| `C90_copy_refuted` | `P_AstProto.v` | Closed under the global context |
| `C90_equivalence` | `P_AstProto.v` | Closed under the global context |
| `C90_message` | `P_AstProto.v` | Closed under the global context |
| `C90_roundtrip_partial` | `P_AstProto.v` | Closed under the global context |
| `C90_roundtrip_refuted` | `P_AstProto.v` | Closed under the global context |
| `C91_equivalence` | `P_AstProto.v` | Closed under the global context |
| `C91_same_partial` | `P_AstProto.v` | Closed under the global context |
| `C91_same_refuted` | `P_AstProto.v` | Closed under the global context |
| `C91_second_variable` | `P_AstProto.v` | Closed under the global context |
| `C92_checked_partial` | `P_AstProto.v` | Closed under the global context |
| `C92_copy_refuted` | `P_AstProto.v` | Closed under the global context |
| `C92_defined` | `P_AstProto.v` | Closed under the global context |
| `C92_failures` | `P_AstProto.v` | Closed under the global context |
| `C92_parsed_partial` | `P_AstProto.v` | Closed under the global context |
| `C93_linear_partial` | `P_Growth.v` | Closed under the global context |
| `C93_linear_refuted` | `P_Growth.v` | Closed under the global context |
| `C93_step_partial` | `P_Growth.v` | Closed under the global context |
| `C94_counted` | `P_Growth.v` | Closed under the global context |
| `C94_every_node` | `P_Growth.v` | Closed under the global context |
| `C94_macros` | `P_Growth.v` | Closed under the global context |
| `C94_once_partial` | `P_Growth.v` | Closed under the global context |
| `C94_once_refuted` | `P_Growth.v` | Closed under the global context |
| `C95_collision_is_ambiguous` | `P_Decl.v` | Closed under the global context |
| `C95_no_collisions` | `P_Decl.v` | Closed under the global context |
| `C95_unambiguous_partial` | `P_Decl.v` | Closed under the global context |
| `C95_unambiguous_refuted` | `P_Decl.v` | Closed under the global context |
| `C96_add` | `P_Decl.v` | Closed under the global context |
| `C96_default_ids_partial` | `P_Decl.v` | Closed under the global context |
| `C96_lookup_id` | `P_Decl.v` | Closed under the global context |
| `C96_lookup_signature_partial` | `P_Decl.v` | Closed under the global context |
| `C96_lookup_signature_refuted` | `P_Decl.v` | Closed under the global context |
| `C96_lookup_total` | `P_Decl.v` | Closed under the global context |
| `C96_order` | `P_Decl.v` | Closed under the global context |
| `C97_checker` | `P_Decl.v` | Closed under the global context |
| `C97_decides` | `P_Decl.v` | Closed under the global context |
| `C97_overlap` | `P_Decl.v` | Closed under the global context |
| `C97_preorder` | `P_Decl.v` | Closed under the global context |
| `C97_type_params_partial` | `P_Decl.v` | Closed under the global context |
| `C97_type_params_refuted` | `P_Decl.v` | Closed under the global context |
| `C98_round_trip_partial` | `P_Decl.v` | Closed under the global context |
| `C98_round_trip_refuted` | `P_Decl.v` | Closed under the global context |
| `C98_specifiable` | `P_Decl.v` | Closed under the global context |
| `C98_text_round_trip_partial` | `P_Decl.v` | Closed under the global context |
| `C98_well_known` | `P_Decl.v` | Closed under the global context |
| `C99_chain` | `P_Optional.v` | Closed under the global context |
| `C99_index_refuted` | `P_Optional.v` | Closed under the global context |
| `C99_list_partial` | `P_Optional.v` | Closed under the global context |
| `C99_map_partial` | `P_Optional.v` | Closed under the global context |
