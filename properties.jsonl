{"id": "C01", "title": "int and uint arithmetic is exact or an error", "statement": "For int and uint operands, +, -, *, unary -, / and % return the exact mathematical result (division truncating toward zero, remainder with the sign of the dividend) whenever that result is representable in the 64-bit type, and otherwise return an error value: they never wrap, never trap, and never return an error for a representable result (single exception: INT64_MIN % -1 fails exactly like INT64_MIN / -1).", "quantifier": "all pairs of 64-bit signed values, all pairs of 64-bit unsigned values, all operators", "why_tests_cant": "2^128 operand pairs per operator; the boundary conditions are different for every operator", "anchors": ["internal/overflow.cc:CheckedAdd,CheckedSub,CheckedNegation,CheckedMul,CheckedDiv,CheckedMod", "runtime/standard/arithmetic_functions.cc"]}
{"id": "C02", "title": "the division law", "statement": "Whenever a / b and a % b both evaluate to values q and r, then q * b + r evaluates to a without error, |r| < |b|, and a / b is an error exactly when a % b is an error.", "quantifier": "all pairs of int operands and all pairs of uint operands", "why_tests_cant": "a law relating four operators over all operand pairs", "anchors": ["internal/overflow.cc:CheckedDiv,CheckedMod", "runtime/standard/arithmetic_functions.cc:Div,Modulo"]}
{"id": "C03", "title": "numeric comparison agrees with the mathematical order", "statement": "For numbers of any of the types int, uint and double, a < b, a <= b, a > b, a >= b and a == b agree with the mathematical order of the two numbers, with every comparison involving NaN false. (The full statement is refuted for int/uint against double outside +-2^53; it holds for every int/uint pair, every same-type pair, and every int or uint of magnitude at most 2^53 against any double.)", "quantifier": "all pairs of numeric values of all three types including infinities, NaN and signed zero", "why_tests_cant": "mixed-type comparison goes through a lossy conversion; which operands are affected can only be settled by a proof over all of them", "anchors": ["internal/number.h:Number,DoubleCompareVisitor,UintCompareVisitor,IntCompareVisitor", "runtime/standard/comparison_functions.cc:CrossNumericLessThan"]}
{"id": "C04", "title": "numeric comparison operators are mutually consistent", "statement": "For any two numbers of any numeric types: a < b iff b > a; a <= b iff b >= a; a == b iff b == a; if neither is NaN exactly one of a < b, a == b, a > b holds; if either is NaN none of <, <=, ==, >=, > holds; a <= b iff a < b or a == b.", "quantifier": "all pairs of numeric values, all combinations of the three types", "why_tests_cant": "trichotomy is a universally quantified law across nine type combinations", "anchors": ["internal/number.h:Number::operator<,operator==", "runtime/standard/comparison_functions.cc"]}
{"id": "C05", "title": "numeric equality is an equivalence", "statement": "Numeric == is reflexive on non-NaN values, symmetric and transitive. (Transitivity is refuted once doubles are mixed with ints beyond 2^53; it holds over ints and uints, and over all numbers whose integers have magnitude at most 2^53.)", "quantifier": "all triples of numeric values", "why_tests_cant": "a counterexample needs three related values out of 2^192", "anchors": ["internal/number.h:Number", "runtime/standard/equality_functions.cc:ValueEqualImpl"]}
{"id": "C06", "title": "numeric type conversion is truncation or an error", "statement": "int(d), uint(d), int(u), uint(i) return the operand truncated toward zero if the operand is inside the documented range of the target type, and an error otherwise; no out-of-range cast (undefined behaviour) is ever executed; converting an int to uint and back, or a uint to int and back, is the identity whenever both steps succeed.", "quantifier": "all doubles including NaN, infinities, subnormals and the neighbours of 2^63 and 2^64; all ints; all uints", "why_tests_cant": "the dangerous inputs are single points in a 2^64 space", "anchors": ["internal/overflow.cc:CheckedDoubleToInt64,CheckedDoubleToUint64,CheckedInt64ToUint64,CheckedUint64ToInt64", "runtime/standard/type_conversion_functions.cc:RegisterIntConversionFunctions,RegisterUintConversionFunctions"]}
{"id": "C07", "title": "lossless numeric key conversion", "statement": "A number is usable as an int (resp. uint) list index or map key exactly when its mathematical value is an integer that the key type can hold, and then the key used is that integer; the double-to-integer cast is only executed on in-range values.", "quantifier": "all doubles, ints and uints", "why_tests_cant": "the boundary doubles 2^63, 2^64 and their neighbours are the whole point and are 1 in 2^64", "anchors": ["internal/number.h:LosslessConvertibleToIntVisitor,LosslessConvertibleToUintVisitor,ConversionVisitor"]}
{"id": "C08", "title": "timestamp and duration arithmetic stays in range and is invertible", "statement": "Duration +, -, unary - and timestamp +- duration and timestamp - timestamp return the exact result if it lies in the supported range and otherwise an error; in particular (t + d) - d is t whenever both steps succeed, and no result outside the supported timestamp range is ever produced.", "quantifier": "all in-range durations and timestamps (seconds and nanoseconds)", "why_tests_cant": "second/nanosecond carry and range checks interact at the boundaries", "anchors": ["internal/overflow.cc:CheckedAdd(absl::Time,absl::Duration),CheckedSub", "runtime/standard/time_functions.cc"]}
{"id": "C09", "title": "UTF-8 encode/decode round trip", "statement": "Decoding the encoding of any Unicode scalar value, followed by any bytes, yields that scalar value and the length of its encoding; anything that is not a scalar value is encoded as U+FFFD; decoding always reports between 1 and 4 code units and never more than are available.", "quantifier": "all code points and all byte suffixes", "why_tests_cant": "the input space includes arbitrary trailing bytes and truncated input", "anchors": ["internal/utf8.cc:Utf8Encode,Utf8Decode", "internal/unicode.h:UnicodeIsValid"]}
{"id": "C10", "title": "UTF-8 validation accepts exactly the well-formed strings", "statement": "The validity test accepts a byte string iff it is a concatenation of encodings of Unicode scalar values, and for those strings the reported code point count is the number of scalar values; hence size(string) is the number of code points.", "quantifier": "all byte strings of all lengths", "why_tests_cant": "overlong forms, surrogates and truncated sequences at every position of arbitrarily long input", "anchors": ["internal/utf8.cc:Utf8IsValid,Utf8CodePointCount,Utf8Validate"]}
{"id": "C11", "title": "string literal round trip", "statement": "Formatting any valid UTF-8 string as a CEL string literal and parsing that literal gives back exactly the original string.", "quantifier": "all well-formed UTF-8 strings of all lengths, with all mixtures of quotes, backslashes, control and non-ASCII characters", "why_tests_cant": "escaping and quoting choices depend on the whole string", "anchors": ["internal/strings.cc:FormatStringLiteral,ParseStringLiteral,EscapeInternal,UnescapeInternal"]}
{"id": "C12", "title": "bytes literal round trip", "statement": "Formatting any byte string as a CEL bytes literal and parsing that literal gives back exactly the original bytes.", "quantifier": "all byte strings", "why_tests_cant": "256^n inputs; octal/hex escapes followed by digits are the classic trap", "anchors": ["internal/strings.cc:FormatBytesLiteral,ParseBytesLiteral,EscapeBytes"]}
{"id": "C13", "title": "source positions and line/column locations are inverse", "statement": "For every source text and every position within it, converting the position to line and column and back gives the same position, the column is the number of code points since the last newline and the line is one more than the number of newlines before the position.", "quantifier": "all well-formed source texts shorter than 2^31 - 1 bytes (the exact limit is C43) and all positions in them", "why_tests_cant": "depends on newline placement in arbitrary texts", "anchors": ["common/source.cc:Source::GetLocation,GetPosition,FindLine,FindLinePosition,NewSourceImpl"]}
{"id": "C14", "title": "value equality is reflexive away from NaN", "statement": "v == v evaluates to true for every value built from null, booleans, numbers, strings, bytes, durations, timestamps, types, optionals, lists and maps that contains no NaN, at any nesting depth.", "quantifier": "all finite nested values", "why_tests_cant": "arbitrary nesting", "anchors": ["runtime/standard/equality_functions.cc:ValueEqualImpl,ListEqual,MapEqual"]}
{"id": "C15", "title": "value equality is symmetric", "statement": "a == b and b == a evaluate to the same result. (Refuted: a map holding both int and uint spellings of one number equals a map that does not equal it back. Proved for all values in which no map has two numerically equal keys.)", "quantifier": "all pairs of finite nested values", "why_tests_cant": "the counterexample needs two specially constructed maps", "anchors": ["runtime/standard/equality_functions.cc:MapEqual,CheckAlternativeNumericType"]}
{"id": "C16", "title": "map literals hold each key once and lookups return what was inserted", "statement": "Building a map from a sequence of entries either fails (invalid key kind, or a repeated key) or yields a map whose size is the number of entries, in which looking up each inserted key yields its inserted value, iteration visits every entry exactly once (in some order), and looking up any other key reports absence.", "quantifier": "all entry sequences", "why_tests_cant": "all sequences of insertions of all lengths", "anchors": ["common/values/value_builder.cc:MapValueBuilderImpl::Put", "common/values/map_value.cc:CheckMapKey", "eval/eval/create_map_step.cc"]}
{"id": "C17", "title": "list membership agrees with equality", "statement": "x in list is true iff some element e of the list has e == x. (Refuted when elements contain maps with numerically equal keys of different kinds; proved otherwise.)", "quantifier": "all values x and all lists", "why_tests_cant": "two independent implementations of equality must agree on all nested values", "anchors": ["common/values/value_builder.cc:ListValueImpl::Contains", "eval/eval/equality_steps.cc:EvaluateIn", "runtime/standard/container_membership_functions.cc:HeterogeneousEqualityIn"]}
{"id": "C18", "title": "map membership and indexing agree with numeric equality of keys", "statement": "k in m is true iff m has a key that equals k, and then m[k] does not fail; this holds for the built-in fast path and for the registered function overloads alike. (Refuted for the registered uint overload, which drops the int alternative; proved for the others.)", "quantifier": "all keys of all types and all maps", "why_tests_cant": "four key kinds, three lookup paths, every map", "anchors": ["runtime/standard/container_membership_functions.cc:uintKeyInSet", "eval/eval/equality_steps.cc:EvaluateInMap", "eval/eval/container_access_step.cc:LookupInMap"]}
{"id": "C19", "title": "logical operators absorb errors and commute", "statement": "a && b is false if either operand is false, true if both are true, and otherwise an error or unknown; a || b dually; the boolean results are independent of operand order and unaffected by an error, unknown or non-boolean on the other side; && and || are De Morgan duals under !.", "quantifier": "all pairs of operand values including errors, unknowns and non-booleans", "why_tests_cant": "the operand space is all values", "anchors": ["eval/eval/logic_step.cc:LogicalOpStep::Calculate,DirectLogicStep,ExhaustiveDirectLogicStep"]}
{"id": "C20", "title": "short-circuiting does not change results", "statement": "For every expression and activation (without unknown tracking), evaluating with short-circuiting disabled returns the same value as evaluating with short-circuiting enabled, as long as the exhaustive evaluation completes.", "quantifier": "all expressions, all activations, all function implementations without side effects", "why_tests_cant": "all programs", "anchors": ["eval/eval/logic_step.cc", "eval/eval/ternary_step.cc", "eval/eval/comprehension_step.cc", "runtime/runtime_options.h:short_circuiting"]}
{"id": "C21", "title": "the planned iterative program computes the meaning of the expression", "statement": "For every expression, executing the flat step program planned for it leaves exactly one value, and this value is the one given by the reference (tree) semantics of the expression. (Refuted in general because of C25; proved for programs without cel.bind-style lazy slots, and with them when short-circuiting is off.)", "quantifier": "all expressions of any depth, all activations, all registered functions", "why_tests_cant": "the compiler's jump offsets and slot numbers must be right for every nesting", "anchors": ["eval/compiler/flat_expr_builder.cc:FlatExprVisitor", "eval/eval/evaluator_core.cc:ExecutionFrame::Evaluate"]}
{"id": "C22", "title": "recursive and iterative plans agree", "statement": "For every expression, the recursively planned program (max_recursion_depth -1) and the iterative program (max_recursion_depth 0) produce the same value, up to which of several errors is reported. (Refuted for loop steps that read the accumulator after writing it, map literals with colliding keys, has() on optionals, unknown tracking, and because of C25; proved for the expressions the macros produce, with map literals that have distinct constant keys.)", "quantifier": "all expressions and activations", "why_tests_cant": "two complete implementations must agree on all programs", "anchors": ["eval/compiler/flat_expr_builder.cc:MaybeMakeDirectRecursive...", "eval/eval/direct_expression_step.h"]}
{"id": "C23", "title": "evaluation is well behaved on every planned program", "statement": "Running any planned program never underflows the value stack, never jumps outside the program, never reads a comprehension slot before it is set, never pops an absent iterator or call frame, always terminates, and ends with exactly one value on the stack, an empty iterator stack and an empty call stack.", "quantifier": "all expressions, all activations", "why_tests_cant": "memory safety of an interpreter over all programs", "anchors": ["eval/eval/evaluator_stack.h", "eval/eval/evaluator_core.cc", "eval/eval/comprehension_step.cc", "eval/eval/jump_step.cc"]}
{"id": "C24", "title": "comprehension iteration budget", "statement": "With comprehension_max_iterations = N > 0 no evaluation executes more than N - 1 loop bodies in total over all comprehensions, nested ones included; an evaluation whose unlimited run needs at most N - 1 returns exactly the unlimited result; otherwise evaluation fails with the budget error; N = 0 never fails.", "quantifier": "all expressions, activations and budgets", "why_tests_cant": "nested loops share one counter; counting all executions of all programs", "anchors": ["eval/eval/evaluator_core.h:IncrementIterations", "eval/eval/comprehension_step.cc", "runtime/runtime_options.h:comprehension_max_iterations"]}
{"id": "C25", "title": "comprehension and bind variables are local", "statement": "A variable introduced by a comprehension or by cel.bind never influences the value of any expression outside its scope: sibling sub-expressions evaluate as if the comprehension had not run. (Refuted for the default iterative planner: a short-circuited comprehension leaves its iteration slot set and a sibling cel.bind that reuses the slot reads the stale value. Proved for the recursive planner and for short-circuiting off.)", "quantifier": "all expressions and activations", "why_tests_cant": "requires a particular combination of early exit, slot reuse and laziness", "anchors": ["eval/eval/comprehension_step.cc:ComprehensionCondStep,ComprehensionFinishStep", "eval/eval/lazy_init_step.cc:LazyInitStep", "eval/compiler/flat_expr_builder.cc:IndexManager,LookupSlot"]}
{"id": "C26", "title": "standard macros compute their documented meaning", "statement": "For every list or map range and every predicate expression, all / exists / exists_one / map / filter evaluate to the documented value: e.g. exists is true if some element satisfies the predicate even when the predicate errors on others, false if all are false, error otherwise; filter returns exactly the satisfying elements in order; map the images in order.", "quantifier": "all ranges of all lengths and all predicates", "why_tests_cant": "list length is unbounded and predicates may error at any element", "anchors": ["parser/macro.cc:ExpandAllMacro,ExpandExistsMacro,ExpandExistsOneMacro,ExpandMap2Macro,ExpandMap3Macro,ExpandFilterMacro", "eval/eval/comprehension_step.cc"]}
{"id": "C27", "title": "strict functions propagate the first error", "statement": "A call to a strict function with an error argument never invokes the function and evaluates to the leftmost error argument; with no error argument the registered overload matching the runtime kinds is invoked exactly on the argument values; with no match the result is a no-matching-overload error.", "quantifier": "all argument vectors, all registries", "why_tests_cant": "all combinations of argument values", "anchors": ["eval/eval/function_step.cc:AbstractFunctionStep::DoEvaluate,NoOverloadResult,ResolveStatic,DirectFunctionStepImpl"]}
{"id": "C28", "title": "overload resolution does not depend on registration order", "statement": "After any sequence of successful registrations at most one registered overload of a name accepts any given runtime argument kinds and call style, so the implementation selected by a call is the same for every order of the same registrations; a registration that would create an ambiguity is rejected and leaves the registry unchanged.", "quantifier": "all registration sequences and all argument kinds", "why_tests_cant": "all histories of registrations", "anchors": ["runtime/function_registry.cc:FunctionRegistry::Register,DescriptorRegistered", "common/function_descriptor.cc:ShapeMatches", "eval/eval/function_step.cc:ArgumentKindsMatch"]}
{"id": "C29", "title": "cel.bind evaluates its initialiser lazily, at most once, and means substitution", "statement": "cel.bind(x, e1, e2) evaluates to the value of e2 with x bound to the value of e1; e1 is evaluated at most once, and not at all if e2 never reads x.", "quantifier": "all initialisers, bodies and activations", "why_tests_cant": "counts evaluations over all executions", "anchors": ["eval/eval/lazy_init_step.cc", "eval/compiler/flat_expr_builder.cc:PreVisitComprehension,LookupSlot"]}
{"id": "C30", "title": "attribute pattern matching is prefix matching", "statement": "An attribute fully matches a pattern iff the pattern, with wildcards matching any qualifier, is a prefix of the attribute path; it partially matches iff the attribute is a proper prefix of some attribute the pattern fully matches; extending an attribute never loses a full match.", "quantifier": "all attributes and all patterns of all lengths", "why_tests_cant": "unbounded path lengths and wildcard placements", "anchors": ["base/attribute.h:AttributePattern::IsMatch,AttributeQualifierPattern::IsMatch", "eval/eval/attribute_utility.cc:MatchAgainstPatterns"]}
{"id": "C31", "title": "unknown sets are merged as sets", "statement": "The unknown set reported for a call or aggregate is exactly the union of the unknown sets of its operands and of the attributes of its partially or fully unknown operands; merging is associative, commutative and idempotent and never drops an attribute.", "quantifier": "all operand vectors", "why_tests_cant": "set algebra over arbitrary operand lists", "anchors": ["eval/eval/attribute_utility.cc:MergeUnknowns,IdentifyAndMergeUnknowns", "base/internal/unknown_set.h", "base/attribute_set.h"]}
{"id": "C32", "title": "partial evaluation is sound", "statement": "If evaluation with a set of attributes marked unknown yields a non-unknown result, then evaluation with those attributes given any values whatsoever yields the same result.", "quantifier": "all expressions, all sets of unknown attribute patterns, all completions", "why_tests_cant": "quantifies over all completions of the unknown data", "anchors": ["eval/eval/attribute_utility.cc", "eval/eval/ident_step.cc", "eval/eval/select_step.cc", "eval/eval/logic_step.cc"]}
{"id": "C33", "title": "logical operator balancing preserves the operand sequence", "statement": "A chain e1 op e2 op ... op en parsed with balancing has exactly the operands e1..en in order as its leaves, contains n-1 operator nodes each using its own source position id, and has depth at most ceil(log2 n); it evaluates to the same result as the left-associated chain, and so does the variadic form (when some operand is neither a boolean nor an error nor an unknown, up to which error is reported).", "quantifier": "all chain lengths up to 2^30 and all operands", "why_tests_cant": "unbounded chain length", "anchors": ["parser/parser.cc:ExpressionBalancer::BalancedTree,AddTerm,Balance"]}
{"id": "C34", "title": "name resolution tries containers innermost first", "statement": "Resolving a name in container a.b.c tries a.b.c.name, a.b.name, a.name, name, in this order, each exactly once; a leading dot tries only the root; an alias replaces the first segment and suppresses the containers; for dotted names each container is tried with the longest qualified prefix first.", "quantifier": "all containers, all (partly qualified) names, all alias tables", "why_tests_cant": "all lengths of containers and names", "anchors": ["checker/internal/namespace_generator.cc:NamespaceGenerator::GenerateCandidates"]}
{"id": "C35", "title": "type inference never creates a cyclic type and always terminates", "statement": "Whatever sequence of assignability checks is made, the set of inferred type variable bindings is acyclic, so every substitution terminates; the check itself terminates.", "quantifier": "all sequences of assignability checks over all types", "why_tests_cant": "cycles need crafted sequences of unifications", "anchors": ["checker/internal/type_inference_context.cc:IsAssignableInternal,OccursWithin,Substitute"]}
{"id": "C36", "title": "assignability accepts what it should", "statement": "Every type is assignable to itself; dyn and any are assignable to and from every type; a failed check leaves the inferred bindings unchanged; on success the two types become equal after full substitution or differ only by dyn/any/error, wrapper or null widening.", "quantifier": "all types and binding states", "why_tests_cant": "all type trees", "anchors": ["checker/internal/type_inference_context.cc:IsAssignable,IsAssignableWithConstraints"]}
{"id": "C37", "title": "sets extension laws", "statement": "sets.contains(a, b) is true iff every element of b equals some element of a; sets.intersects(a, b) iff some element is common, and is symmetric; sets.equivalent(a, b) iff each contains the other, and is an equivalence on lists without NaN whose elements' equality is transitive.", "quantifier": "all pairs/triples of lists", "why_tests_cant": "all lists", "anchors": ["extensions/sets_functions.cc"]}
{"id": "C38", "title": "list extension functions", "statement": "slice(l, i, j) returns elements i..j-1 or an error when indices are negative, reversed or past the end; reverse is an involution; flatten(d) removes exactly d levels of nesting and is idempotent once flat; distinct keeps the first of each group of equal elements in order; range(n) is 0..n-1; sort returns an ordered permutation.", "quantifier": "all lists, indices and depths", "why_tests_cant": "all lists of all lengths", "anchors": ["extensions/lists_functions.cc"]}
{"id": "C39", "title": "math extension functions", "statement": "math.greatest/least return one of their arguments and it is not less/greater than any other NaN-free argument; abs, sign, bit operations and shifts agree with two's complement arithmetic on Z, and error exactly when documented (abs of the minimum int, negative shifts).", "quantifier": "all numeric arguments", "why_tests_cant": "2^64 values per operand", "anchors": ["extensions/math_ext.cc"]}
{"id": "C40", "title": "parsed string values are well-formed UTF-8", "statement": "Whatever bytes are given to the string literal parser or to string unescaping, a successful result is well-formed UTF-8 (no escape can produce a surrogate or a stray byte).", "quantifier": "all byte strings", "why_tests_cant": "all inputs, including malformed UTF-8 and every combination of escapes", "anchors": ["internal/strings.cc:ParseStringLiteral,UnescapeString,UnescapeInternal"]}
{"id": "C41", "title": "escape sequences are decoded exactly as the language defines", "statement": "Unescaping succeeds exactly on the texts derivable in the CEL escape grammar and yields exactly the value the grammar assigns: octal, hex, \\u, \\U and single-character escapes, CR and CRLF normalisation, raw literals without escapes.", "quantifier": "all byte strings, string and bytes literals, raw and cooked", "why_tests_cant": "unbounded grammar, accept and reject directions", "anchors": ["internal/strings.cc:UnescapeInternal,ParseStringLiteral,ParseBytesLiteral"]}
{"id": "C42", "title": "string and Cord forms of the UTF-8 functions agree", "statement": "For every byte string, validity, validation and code point count give the same answer whether the text is held as a flat string or as a Cord.", "quantifier": "all byte strings", "why_tests_cant": "depends on the interplay of peeking and malformed input", "anchors": ["internal/utf8.cc:CordReader,Utf8CodePointCount,Utf8IsValid,Utf8Validate"]}
{"id": "C43", "title": "source creation is defined for every text", "statement": "Creating a source from any text either succeeds or reports an error; it never overflows the 32-bit position type.", "quantifier": "all texts of all sizes", "why_tests_cant": "the boundary needs a text of 2 GiB", "anchors": ["common/source.cc:NewSourceImpl,NewSource"]}
{"id": "C44", "title": "== and != decide the documented equality of values", "statement": "a == b always answers true or false and a != b the opposite; it is true exactly when a and b are equal as CEL documents it: numbers by value, strings, bytes, times and types by content, lists elementwise, maps when their entries can be paired off with equal keys and values, optionals by content. (Refuted for optionals that hold maps whose keys are numerically equal but of different kinds.)", "quantifier": "all pairs of finite nested values", "why_tests_cant": "all nesting depths and all pairs of kinds", "anchors": ["runtime/standard/equality_functions.cc:ValueEqualImpl,ListEqual,MapEqual", "common/value.cc:Value::Equal", "eval/eval/equality_steps.cc:EvaluateEquality"]}
{"id": "C45", "title": "an optional never holds an error", "statement": "Indexing an optional value yields an empty optional, an optional that holds the value found, or an error; the content of an optional is never an error. (Refuted: an optional list indexed out of range, or any optional indexed with a key of a wrong type, yields an optional that holds the error.)", "quantifier": "all optionals and all keys", "why_tests_cant": "all containers and all keys, including failing lookups", "anchors": ["eval/eval/container_access_step.cc:PerformLookup,LookupInContainer", "common/optional.h:OptionalValue::Of"]}
{"id": "C46", "title": "two-variable macros compute their documented meaning", "statement": "For every list (index, element) or map (key, value) range: exists / all / existsOne decide the predicate over the pairs; transformList collects the images in order, where the filter is true; transformMap builds the map from the first variable to the image; transformMapEntry builds the union of the entry maps, a key given twice being an error. A predicate's or image's error is the result as documented, and the call is rejected at parse time unless the variables are two different simple identifiers.", "quantifier": "all ranges, predicates, images and iteration orders of built maps", "why_tests_cant": "all lengths, key collisions and error positions", "anchors": ["extensions/comprehensions_v2_macros.cc:ExpandAllMacro2 ... ExpandTransformMapEntry4Macro", "extensions/comprehensions_v2_functions.cc:MapInsertKeyValue,MapInsertMap"]}
{"id": "C47", "title": "optMap and optFlatMap mean what they say", "statement": "With short-circuiting: on an empty optional they yield the empty optional without evaluating the body; on an optional holding v they yield the body's value with the variable bound to v, wrapped (optMap) or as it is (optFlatMap); an error of the operand or the body is the result.", "quantifier": "all operands, bodies and activations", "why_tests_cant": "all expressions", "anchors": ["parser/macro.cc:ExpandOptMapMacro,ExpandOptFlatMapMacro", "runtime/optional_types.cc:OptionalOf,OptionalNone,OptionalHasValue,OptionalGetValue"]}
{"id": "C48", "title": "containers and aliases stay consistent", "statement": "After any sequence of SetContainer, AddAlias, AddAbbreviation and clear: the container is empty or a dotted sequence of identifiers, every alias is an identifier standing for a valid qualified name, no alias is defined twice and none is the first segment of the container. Each call succeeds exactly when this would stay so, and a failed call changes nothing. An abbreviation is an alias named after its last segment.", "quantifier": "all histories of calls with arbitrary texts", "why_tests_cant": "unbounded histories", "anchors": ["common/container.cc:ExpressionContainer::SetContainer,AddAlias,AddAbbreviation,FindAlias", "internal/lexis.cc:LexisIsIdentifier"]}
{"id": "C49", "title": "a call in a container finds the innermost function", "statement": "Calling f in container a.b.c uses the overloads of the right style and arity registered under the innermost of a.b.c.f, a.b.f, a.f, f that has any, with a leading dot those of f alone, whether they are registered eagerly or lazily. (Refuted for lazy functions: they are looked up under the unqualified name only, so one declared in the container is not found and one at the root hides an eager function of the container.)", "quantifier": "all registries, containers and names", "why_tests_cant": "all histories of registrations and all containers", "anchors": ["eval/compiler/resolver.cc:Resolver::FindOverloads,FindLazyOverloads,GetPrefixesFor", "eval/compiler/flat_expr_builder.cc:AddResolvedFunctionStep"]}
{"id": "C50", "title": "math.greatest and math.least accept any number of arguments", "statement": "math.greatest(a, b, ...) and math.least(a, b, ...) yield the greatest and least of the arguments' values for every number of arguments, or of a list's elements when given one list; the first argument that evaluates to an error is the result. A call is rejected at parse time exactly when it has no argument or an argument that cannot be a number, and a call whose receiver is not `math` is left alone.", "quantifier": "all argument lists, registries with the math library, and activations", "why_tests_cant": "all arities and all expressions", "anchors": ["extensions/math_ext_macros.cc:math_macros,IsValidArgType,IsListLiteralWithValidArgs,CheckInvalidArgs", "extensions/math_ext.cc:RegisterMathExtensionFunctions"]}
{"id": "C51", "title": "list and map literals get the common type of their elements", "statement": "The checker types a list literal as a list of the elements' common type when the type variables in the element types can be chosen so that they agree, and as a list of dyn otherwise, in which case it binds no type variable; likewise for the keys and values of a map literal, whatever their order. (Refuted for maps with null and message values: the literal's value type is then null when the null comes first, although the same elements in a list are given the message type.)", "quantifier": "all element types and all histories of the inference context", "why_tests_cant": "unbounded types and histories", "anchors": ["checker/internal/type_checker_impl.cc:ResolveVisitor::PostVisitList,PostVisitMap", "checker/internal/type_inference_context.cc:IsAssignableInternal,InstantiateTypeParams"]}
{"id": "C52", "title": "a recursion limit only affects planning", "statement": "With max_recursion_depth = n > 0 planning either fails with the recursion depth error or yields the same program as without a limit; that program's evaluation never nests more than n steps, so it gives exactly what it gives without a limit; a larger limit accepts whatever a smaller one accepts, and every expression is accepted with some limit.", "quantifier": "all expressions, limits and activations", "why_tests_cant": "all nestings of steps, including the lazily evaluated initialisers of cel.bind", "anchors": ["eval/compiler/flat_expr_builder.cc:SetRecursiveStep", "eval/compiler/flat_expr_builder_extensions.cc:RecursiveDependencyDepth", "eval/eval/direct_expression_step.h"]}
{"id": "C53", "title": "comprehension iteration budget in recursive programs", "statement": "C24 for recursively planned programs: with comprehension_max_iterations = N > 0 no evaluation executes more than N - 1 loop bodies in total; one whose unlimited run needs at most N - 1 returns exactly the unlimited result, with the same calls of functions; any other fails with the budget error.", "quantifier": "all expressions, activations, budgets, unknown patterns and recursion limits", "why_tests_cant": "nested loops share one counter; counting all executions of all programs", "anchors": ["eval/eval/comprehension_step.cc:ComprehensionDirectStep::Evaluate1,Evaluate2", "eval/eval/evaluator_core.h:ExecutionFrameBase::IncrementIterations"]}
{"id": "C54", "title": "recursive evaluation always finishes cleanly", "statement": "C23 for recursively planned programs: evaluating one always ends, with a value that is a valid CEL value (int in int64, uint in uint64, ...) or with an error status; it never reads a variable slot that holds nothing, is never stopped for nesting too deep, and has no undefined behaviour, provided the host's functions and variables give valid values.", "quantifier": "all expressions, options, activations, unknown patterns, recursion limits and contents of moved-from values", "why_tests_cant": "all programs and all values flowing through them", "anchors": ["eval/eval/comprehension_step.cc:ComprehensionDirectStep", "eval/eval/ident_step.cc:SlotStep", "eval/eval/lazy_init_step.cc:DirectLazyInitStep,BindStep", "eval/eval/comprehension_slots.h"]}
{"id": "C55", "title": "signatures of types and overloads read back", "statement": "The text signature of a type or of a function overload, parsed, gives that type or overload again (message types as abstract types of that name, types left out as dyn), also with white space added anywhere outside of escapes. Names are not empty, have no white space and are not the signature words of other types; they may contain brackets, commas, dots, tildes and backslashes. Parsing any text whatsoever ends with a result or an error.", "quantifier": "all types of any depth, names and texts", "why_tests_cant": "unbounded nesting and arbitrary names", "anchors": ["common/signature.cc:MakeTypeSpecSignature,MakeOverloadSignature,ParseTypeSpec,ParseFunctionSignature"]}
{"id": "C56", "title": "different overloads have different signatures", "statement": "Two overloads with the same generated signature have the same function name, call style and argument types, so the generated overload ids do not collide. (Refuted for a message or abstract type named like a built-in type.)", "quantifier": "all pairs of overloads", "why_tests_cant": "all pairs of overloads of any size", "anchors": ["common/signature.cc:MakeOverloadSignature", "common/decl.cc:OverloadDecl"]}
{"id": "C57", "title": "a parsed signature can be written again", "statement": "Whatever type or overload a text parses to has a signature, and that parses to the same type or overload. (Refuted for names with escaped white space: the white space is written without an escape and lost.)", "quantifier": "all texts", "why_tests_cant": "arbitrary texts", "anchors": ["common/signature.cc:ParseTypeSpec,ParseFunctionSignature,MakeTypeSpecSignature,StripUnescapedWhitespace,AppendEscaped"]}
{"id": "C58", "title": "threads may share an activation", "statement": "Any number of threads may evaluate with one activation whose variables are bound to values and providers, in any interleaving: no two accesses race; providers are called one at a time, and one that has given a value is not called again until the variable is bound anew; every lookup gives the value bound, or the value the provider gave to the first asker, or else what the provider has just said to this very lookup; all threads see the same value; and some lookup can always go on. (Refuted when a provider looks up a provided variable of the same activation: it waits for ever for the lock it holds itself.)", "quantifier": "all schedules of any number of threads, all bindings, all behaviours of providers", "why_tests_cant": "all interleavings", "anchors": ["runtime/activation.cc:Activation::FindVariable,ProvideValue,InsertOrAssignValue,InsertOrAssignValueProvider"]}
{"id": "C59", "title": "moving an activation keeps its contents", "statement": "An activation constructed or assigned from another by moving has the other's variables, functions, unknown and missing patterns, and everything else that affects evaluation; the other is left empty. (Refuted for the attribute matcher, which stays behind.)", "quantifier": "all activations", "why_tests_cant": "all contents", "anchors": ["runtime/activation.h:swap(Activation&, Activation&)", "runtime/activation.cc:Activation::Activation(Activation&&),operator="]}
{"id": "C60", "title": "provided values live as long as the evaluation that gets them", "statement": "A variable lookup made with an arena gives a value that lives on that arena or on none, if the providers keep to the arena they are given. (Refuted when evaluations with different arenas share an activation: the value is memoised on the arena of the first and given to all later ones, even when that arena is gone.)", "quantifier": "all schedules, arenas and behaviours of providers", "why_tests_cant": "all histories of evaluations", "anchors": ["runtime/activation.cc:Activation::ProvideValue"]}
{"id": "C61", "title": "constant folding changes nothing but the work done", "statement": "A program planned with constant folding gives, for the same variables, the value or error status that the program planned without it gives, after as many loop bodies; it calls the same functions on the same arguments in the same order, leaving out some; in particular functions that depend on the evaluation context or are found in the activation are never called at plan time. Folding accepts exactly the expressions that planning accepts, and refuses the others with the same status. An expression of literals, selections and calls whose functions depend on nothing but their arguments becomes a single constant if its value is known.", "quantifier": "all expressions, registries, variables and options, whatever contextual and lazy functions do at plan time", "why_tests_cant": "all expressions and function behaviours", "anchors": ["eval/compiler/constant_folding.cc:ConstantFoldingExtension::OnPreVisit,OnPostVisit,IsConstExpr", "eval/compiler/flat_expr_builder.cc:FlatExprVisitor::PostVisitExpr"]}
{"id": "C62", "title": "a compiled policy gives its first match", "statement": "A policy is accepted exactly if every rule has matches and none follows a match that is unconditional and always has an output; composing an accepted policy never fails. The compiled expression then evaluates to the output of the first match that applies: the matches of a rule are tried in order, the first true condition decides by its output or by its nested rule, later matches are not looked at, except after an unconditional nested rule in which nothing applies; variables have the value they have where they are declared, and hide those of the same name of outer rules. Errors of conditions and outputs are the result. If the policy may end without an output the result is an optional, and only then.", "quantifier": "all policies of any nesting, variables, activations and function behaviours", "why_tests_cant": "all policies and inputs", "anchors": ["policy/compiler.cc:FirstMatchComposer::Compose,ComposeRule,ComposeRuleVariables,CheckMatchStructure,IsExhaustive"]}
{"id": "C63", "title": "unnesting a policy keeps its value", "statement": "Compiling a policy with a height limit gives an expression with the value of the one compiled without, in every environment, and as optional; it is refused only when a comprehension would have to be taken apart.", "quantifier": "all policies, height limits and environments", "why_tests_cant": "all policies and limits", "anchors": ["policy/compiler.cc:Unnester::Slice,UnnestRewriter::PostVisitRewrite,Cleanup"]}
{"id": "C64", "title": "the height limit of policies bounds the height of the result", "statement": "The expression compiled with a height limit exceeds it by no more than a small, fixed margin, as documented, or the policy is refused. (Refuted: values of policy variables are not taken apart, and cutting where the height is a multiple of the limit can miss every node of a long path.)", "quantifier": "all policies and height limits", "why_tests_cant": "heights are unbounded", "anchors": ["policy/compiler.h:CompilePolicyOptions::unnesting_height_limit", "policy/compiler.cc:Unnester::Slice"]}
{"id": "C65", "title": "expressions of a policy can be replaced by equivalent ones", "statement": "Replacing conditions, outputs and variables of a policy by expressions of the same meaning leaves the value of the compiled policy as it was. (Refuted for the literal true: under it, but not under another condition that is always true, the search goes on when the nested rule has no match.)", "quantifier": "all policies and replacements", "why_tests_cant": "all pairs of equivalent expressions", "anchors": ["policy/compiler.cc:IsTriviallyTrueCondition,FirstMatchComposer::ComposeRule"]}
{"id": "C66", "title": "searching in strings counts characters", "statement": "indexOf gives the index, counted in characters, of the first place the given string is found at or after the given position (0 if none is given), lastIndexOf that of the last place at or before it (the end if none is given), and -1 if there is no such place; a position below zero or past the size is an error. contains, startsWith and endsWith tell whether the string is found anywhere, at the start or at the end. The answers do not depend on how the strings are stored.", "quantifier": "all well-formed strings, stored contiguously or as Cords cut anywhere, all positions", "why_tests_cant": "all strings, needles and chunk boundaries", "anchors": ["common/values/string_value.cc:StringValue::IndexOf,LastIndexOf,Contains,StartsWith,EndsWith", "extensions/strings.cc:IndexOf2,IndexOf3,LastIndexOf2,LastIndexOf3"]}
{"id": "C67", "title": "substring and charAt count characters", "statement": "charAt gives the character at a position, and the empty string at the end; substring(start) the characters from start on; substring(start, end) those from start up to, not including, end; positions from 0 to the size are accepted, others are errors. The answers do not depend on how the string is stored. (Refuted: a nonempty substring(start, end) that reaches the end of the string is refused; substring(size()) of a string stored as a Cord is the whole string.)", "quantifier": "all well-formed strings, stored contiguously or as Cords cut anywhere, all positions", "why_tests_cant": "all strings, positions and chunk boundaries", "anchors": ["common/values/string_value.cc:StringValue::Substring,CharAt,SubstringImpl"]}
{"id": "C68", "title": "split and join are inverse", "statement": "split cuts a string at the occurrences of the separator, leftmost first, into at most as many pieces as the limit allows, the last piece being the rest; an empty separator cuts it into characters; a negative limit is none and a limit of 0 gives no pieces. What a split is is thereby determined. join puts the separator between the strings of a list and refuses lists with other elements. Joining the pieces of a split with its separator gives the original.", "quantifier": "all well-formed strings, separators and limits, stored contiguously or as Cords cut anywhere", "why_tests_cant": "all strings, separators, limits", "anchors": ["common/values/string_value.cc:StringValue::Split,Join", "common/internal/byte_string.cc:ByteString::Find,Substring", "extensions/strings.cc:Split2,Split3,Join1,Join2"]}
{"id": "C69", "title": "replace replaces the occurrences from the left", "statement": "replace gives the string in which the occurrences of a string, leftmost first and not overlapping, at most as many as the limit allows, are replaced by another, the rest being unchanged; an empty string is found before each character and at the end; a negative limit is none.", "quantifier": "all well-formed strings and limits, stored contiguously or as Cords cut anywhere", "why_tests_cant": "all strings, needles, limits", "anchors": ["common/values/string_value.cc:StringValue::Replace", "extensions/strings.cc:Replace1,Replace2"]}
{"id": "C70", "title": "case, trim, reverse and quote", "statement": "lowerAscii and upperAscii change the case of ASCII letters and nothing else; trim removes the Unicode white space at both ends and nothing else; reverse gives the characters in reverse order; the result of strings.quote, read as a string literal, is the original string. The answers do not depend on how the string is stored.", "quantifier": "all well-formed strings, stored contiguously or as Cords cut anywhere", "why_tests_cant": "all strings and chunk boundaries", "anchors": ["common/values/string_value.cc:StringValue::LowerAscii,UpperAscii,Trim,Reverse,Quote", "internal/strings.cc:ParseStringLiteral"]}
{"id": "C71", "title": "an expression the type checker accepts has the type it is given", "statement": "If the checker reports no error, the deduced type of the expression, with its type variables resolved, is a type the expression has by the typing rules of CEL, for every choice of the variables left over; with an expected type, it is that type. (Refuted in general: the condition of a loop need not be boolean and its step need not have the accumulator's type; a field of a variable known to be an int is accepted. Conversely well-typed expressions are refused: a loop condition that reads the loop's variable, a range whose type is a type variable, an operand whose first matching overload is not the right one.)", "quantifier": "all expressions, declarations and expected types", "why_tests_cant": "all expressions, declarations and orders in which type variables get bound", "anchors": ["checker/internal/type_checker_impl.cc:ResolveVisitor", "checker/internal/type_inference_context.cc:TypeInferenceContext"]}
{"id": "C72", "title": "type checking ends and types every part", "statement": "Checking any expression against any declarations ends, whatever type variables get bound to each other on the way, and records a type for every part of the expression.", "quantifier": "all expressions, declarations and expected types", "why_tests_cant": "termination for all expressions and declarations", "anchors": ["checker/internal/type_checker_impl.cc:TypeCheckerImpl::CheckImpl,ResolveVisitor", "checker/internal/type_inference_context.cc:TypeInferenceContext::IsAssignable,FullySubstitute"]}
{"id": "C73", "title": "what is not declared is reported", "statement": "An expression accepted without an error uses only variables that are declared or bound by a macro, calls only functions declared for that call style and number of arguments, and has only literals of supported kinds, whether or not its types are dynamic.", "quantifier": "all expressions and declarations", "why_tests_cant": "all nestings of scopes and expressions", "anchors": ["checker/internal/type_checker_impl.cc:ResolveVisitor::ResolveSimpleIdentifier,ResolveFunctionCallShape,PostVisitConst"]}
{"id": "C74", "title": "well-typed expressions do not meet type errors", "statement": "When every variable holds a value of its declared type and every function returns a value of its declared result type, evaluating an expression of type t gives a value of type t, or an error that is not about the type of an operand, or runs out of the iteration budget; so does a program made from an expression that the type checker accepted. (Refuted in three places: values of type dyn are assignable to anything; the types of map keys are not checked, so [1] in {} and {[1]: 1} are accepted; indexing through an optional gives an optional that holds an error.)", "quantifier": "all well-typed expressions, all values of the variables, all functions that keep their declarations", "why_tests_cant": "all expressions, values and functions", "anchors": ["eval/compiler/flat_expr_builder.cc:FlatExprVisitor", "eval/eval/evaluator_core.cc:ExecutionFrame::Evaluate", "eval/eval/container_access_step.cc:PerformLookup", "checker/internal/type_checker_impl.cc:ResolveVisitor"]}
{"id": "C75", "title": "shared objects are destroyed once, when the last reference goes", "statement": "When threads copy, drop, weaken and strengthen references to one object under any schedule, each using only references that are owned, and fewer than 2^31 references exist at any time: the object is never used or destroyed while destroyed and the counters never touched after they are freed; the object lives while a strong reference is owned and the counters while any reference is; strengthening succeeds only while a strong reference is owned and fails only when none is, and then for ever; an owner told it is the only one is; and when the last reference is gone the object has been destroyed and the counters freed, exactly once. (The limit is needed: with 2^32 more copies the count wraps round and the object is destroyed while in use.)", "quantifier": "all numbers of threads, all schedules, all programs that use owned references", "why_tests_cant": "all schedules of all threads", "anchors": ["common/internal/reference_count.h:StrongRef,StrongUnref,StrengthenRef,WeakRef,WeakUnref,IsUniqueRef,IsExpiredRef"]}
{"id": "C76", "title": "printed expressions parse to themselves", "statement": "Unparsing an expression gives a text, and parsing that text gives the expression again, up to how chains of && and of || are grouped; what was read back prints and reads back exactly. (Refuted: the parentheses that a sign or a ! needs under a selection, index, method call or macro are dropped, and so are those of two such operators in a row, of a sign before a number, and of a binary operation in has(); whole doubles print as ints; back-quoted fields named true, false or null lose the quotes; functions named _in_ print as the operator, without their receiver; loops over two variables print as loops over one.)", "quantifier": "all expressions made of literals, identifiers, operators, calls, lists, maps, optional entries and the standard macros; all parser options", "why_tests_cant": "all expressions, all nestings of operators, all string contents", "anchors": ["tools/cel_unparser.cc:Unparse", "parser/parser.cc:Parse", "parser/internal/Cel.g4"]}
{"id": "C77", "title": "the parser accepts exactly the grammar", "statement": "A text parses exactly when its tokens are derivable in the grammar of the language, and then to the expression derived: every level of operators binds tighter than the one before, binary operators of a level group to the left, a conditional after the colon needs no parentheses, signs and negations cancel in pairs and a single sign before a number belongs to it, lists and maps may end with a comma, optional marks and back quotes are accepted exactly when enabled, and every receiver, call and macro gets exactly the arguments written. The grammar is unambiguous.", "quantifier": "all texts, all parser options", "why_tests_cant": "all token sequences and all derivations", "anchors": ["parser/internal/Cel.g4", "parser/parser.cc:ParserVisitor"]}
{"id": "C78", "title": "strings contain their bytes in every representation", "statement": "A program that creates, copies, moves, assigns, swaps, cuts and concatenates strings, converts them to and from Cords and destroys them and the arenas they use reads from every string the bytes it should, and meets no undefined behaviour, whether the bytes are inline, counted, in an arena, external or in a Cord; as long as it does not use strings it moved from, keeps positions in range and destroys an arena only when no string that may use it is left. (Refuted for debug builds, where copying a short substring of a long string into an arena and swapping with a string moved from stop at a check.)", "quantifier": "all programs over any number of strings, Cords and arenas, all sizes", "why_tests_cant": "all histories of operations", "anchors": ["common/internal/byte_string.h:ByteString", "common/internal/byte_string.cc:ByteString"]}
{"id": "C79", "title": "the memory of strings is freed once, when the last user goes", "statement": "The memory a string shares with its copies, substrings and Cords is freed at most once, not while one of them is left, and has been freed when none is; assignment keeps the allocator a string was created with. (The last part is refuted: an assigned string uses the arena of the other one.)", "quantifier": "all programs over any number of strings, Cords and arenas", "why_tests_cant": "all histories of operations", "anchors": ["common/internal/byte_string.cc:ByteString::CopyFrom,MoveFrom,Swap,Construct,Destroy,ToCord,RemovePrefix,RemoveSuffix", "common/internal/reference_count.h"]}
{"id": "C80", "title": "format() prints what its format string stands for", "statement": "format() gives a text exactly when its format string stands for one, and then that text: characters other than % stand for themselves, %% for %, and each clause, with its precision where it has one, for the text of the next argument (integers in the clause's base, doubles with the precision given or 6, bytes as two hexadecimal digits each, lists in brackets, maps in braces in the order of the texts of their keys, durations in seconds with the shortest exact fraction of 3, 6 or 9 digits); arguments left over are ignored. Every other format string or argument gives an invalid-argument error, never undefined behaviour.", "quantifier": "all format strings, all lists of arguments of any depth, all values of the precision option", "why_tests_cant": "all byte strings as format, all values", "anchors": ["extensions/formatting.cc:Format,ParseAndFormatClause,ParsePrecision,FormatString,FormatList,FormatMap,FormatDuration"]}
{"id": "C81", "title": "integer clauses are exact", "statement": "%b, %o, %d, %x and %X print every signed and unsigned 64-bit integer, the smallest one included, as its numeral in base 2, 8, 10, 16: no two integers print alike.", "quantifier": "all 64-bit integers, all integer clauses", "why_tests_cant": "2^64 values in five bases", "anchors": ["extensions/formatting.cc:FormatBinary,FormatHex,FormatOctal,FormatDecimal"]}
{"id": "C82", "title": "formatting does not depend on the order of map entries", "statement": "The text format() gives does not depend on the order in which the maps among the arguments, at any depth, iterate over their entries. (Refuted: of keys with the same text, such as 1 and \"1\", only the entry met first is printed.)", "quantifier": "all format strings, all arguments, all orders of their entries", "why_tests_cant": "all permutations of entries at every depth", "anchors": ["extensions/formatting.cc:FormatMap"]}
{"id": "C83", "title": "format() makes well-formed strings", "statement": "When the format string and every string among the arguments are well-formed UTF-8, so is the result. (Refuted: %s copies the bytes of a bytes value.)", "quantifier": "all format strings, all arguments", "why_tests_cant": "all format strings, cut at every position by clauses", "anchors": ["extensions/formatting.cc:FormatString,Format"]}
{"id": "C84", "title": "traversing a syntax tree visits every expression once, in order", "statement": "Traversing any syntax tree ends, and makes exactly the callbacks of a visit by recursion, in the same order: before and after every expression, around every receiver, argument and part of a comprehension, each expression before (PreVisit) and after (PostVisit) those below it, and once. Unset children are visited as empty expressions. Stepping a traversal by hand makes the same callbacks, and it is done exactly when all are made.", "quantifier": "all syntax trees, set or unset children at every place, both treatments of comprehensions, all numbers of steps", "why_tests_cant": "all trees, all depths, all numbers of steps", "anchors": ["common/ast_traverse.cc:AstTraverse,AstTraversal::Step,PushDependencies,PreVisit,PostVisit", "common/ast_traverse.h:AstTraversal"]}
{"id": "C85", "title": "the navigable tree mirrors the syntax tree", "statement": "Building the navigable form of a syntax tree succeeds on every tree; its nodes are the expressions of the tree in preorder, each with its parent, its place among its siblings, its children in order, the number of expressions below it and its height; the descendants of a node in preorder are the node and the descendants of its children in order; an id is looked up to the first node in preorder that has it, and the ids are reported unique exactly when they are.", "quantifier": "all syntax trees, all nodes, all ids, repeated ids included", "why_tests_cant": "all trees", "anchors": ["common/navigable_ast.cc:NavigableAst::Build", "common/ast/navigable_ast_internal.h:NavigableAstMetadata,NavigableAstNodeBase::DescendantsPreorder", "common/navigable_ast.h:NavigableAst::FindId,IdsAreUnique"]}
{"id": "C86", "title": "the relations and the postorder of the navigable tree", "statement": "The descendants of a node in postorder are the descendants of its children in order followed by the node, and what a node is recorded to be to its parent (operand, receiver, argument, key, value, ...) is what it is. (Refuted: the postorder range is wrong for every node of every tree except the root; the children of a map with an entry that lacks its key or value are mislabelled.)", "quantifier": "all syntax trees, all nodes", "why_tests_cant": "all trees, all nodes", "anchors": ["common/ast/navigable_ast_internal.h:NavigableAstNodeBase::DescendantsPostorder", "common/navigable_ast.cc:GetChildKind"]}
{"id": "C87", "title": "rewriting a tree in place does what the recursion does", "statement": "Rewriting a syntax tree in place, with callbacks that keep a state of their own and replace any expression by any other before or after it is visited, makes exactly the callbacks of a rewrite by recursion (what is put in place before the visit is visited, what is put in place after it is not), with the same expressions and the same path from the root, leaves the same tree and gives the same answer; one ends exactly when the other does, and no pointer that is followed dangles. It ends whenever the callback before the visit never makes an expression larger.", "quantifier": "all syntax trees, all rewriters, both treatments of comprehensions", "why_tests_cant": "all trees, all rewriters with any state", "anchors": ["common/ast_rewrite.cc:AstRewrite", "common/ast_rewrite.h:AstRewriter"]}
{"id": "C88", "title": "rewriting from the leaves up, and rewriting nothing", "statement": "With only a stateless callback after the visit, every expression is rewritten exactly once, from the leaves up, and the answer tells whether some rewrite was reported. If the answer is no and the callbacks tell the truth, the tree is unchanged. A rewriter that rewrites nothing gets exactly the callbacks of a traversal. (Refuted for trees with unset list elements or pieces of a comprehension: they become set.)", "quantifier": "all syntax trees, all rewriters", "why_tests_cant": "all trees, all rewriters", "anchors": ["common/ast_rewrite.cc:AstRewrite,PushListDeps,PushComprehensionDeps", "common/expr.h:ListExprElement::mutable_expr"]}
{"id": "C89", "title": "an expression survives the trip through a message", "statement": "Converting an expression to a protobuf message succeeds exactly when every duration and timestamp constant in it is in the range of the message types, and converting the message back gives the same expression, ids, unset children and optional marks included. Whatever expression was read from a message survives any further trips, and a message in its usual form is what the expression read from it is written to. (Refuted for structs without a name: one with fields cannot be read again, one without comes back as a map.)", "quantifier": "all expressions, all messages", "why_tests_cant": "all trees, all ids, all constants", "anchors": ["common/ast/expr_proto.cc:ExprToProto,ExprFromProto", "common/ast/constant_proto.cc:ConstantToProto,ConstantFromProto", "internal/proto_time_encoding.cc:EncodeDuration,DecodeDuration,EncodeTime,DecodeTime"]}
{"id": "C90", "title": "a type survives the trip through a message and copying", "statement": "A type converted to a message and back equals the type it was; a message is read exactly when its enums have known values, and the type read is written to the same message; equality of types is an equivalence relation; a copy of a type equals the type and is written to the same message. (Refuted: the type of an unset type comes back as the type without argument, which is not equal to it; a copy of the type without argument is not equal to it.)", "quantifier": "all types, all messages", "why_tests_cant": "all types of all depths", "anchors": ["common/ast_proto.cc:ConvertProtoTypeToNative,TypeToProto", "common/ast/metadata.cc:CopyImpl", "common/ast/metadata.h:TypeSpec::operator=="]}
{"id": "C91", "title": "equality of expressions", "statement": "Equality of expressions is symmetric and transitive, and reflexive on expressions without NaN; expressions that are equal are the same up to the sign of zero and to unset children being empty expressions. (Refuted: the second variable of a comprehension is not compared.)", "quantifier": "all pairs and triples of expressions", "why_tests_cant": "all trees", "anchors": ["common/expr.h:operator==(const Expr&, const Expr&),operator==(const ComprehensionExpr&, const ComprehensionExpr&)", "common/constant.h:operator=="]}
{"id": "C92", "title": "a whole syntax tree survives the trip through a parsed or checked message", "statement": "Converting a syntax tree to a parsed or a checked message and back gives a tree with the same expression, the same source information, macro calls and extensions included, and, when checked, the same references, version and equal types. The conversion succeeds exactly when the times in it are in range and, for a checked message, the tree is checked; whatever is not converted is refused with InvalidArgument.", "quantifier": "all syntax trees", "why_tests_cant": "all trees with all their side tables", "anchors": ["common/ast_proto.cc:AstToParsedExpr,AstToCheckedExpr,CreateAstFromParsedExpr,CreateAstFromCheckedExpr", "common/ast/source_info_proto.cc:SourceInfoToProto"]}
{"id": "C93", "title": "a comprehension that passes the memory check grows its accumulator linearly", "statement": "With the check for memory exhaustion switched on, a comprehension over a list that is accepted makes its accumulator larger by at most a constant for each element, whatever the number of elements and the initial accumulator. (Refuted: an accepted loop step doubles the accumulator in each iteration by binding it to a variable that is used twice, by mapping a list to it, or by passing it through a function such as string(); proved for steps that use the accumulator only through +, dyn, conditionals, lists, map values, selection, indexing, functions with small results and results of inner comprehensions.)", "quantifier": "all loop steps, all lists, all initial accumulators", "why_tests_cant": "all expressions, lists of any length, values of any size", "anchors": ["eval/compiler/comprehension_vulnerability_check.cc:ComprehensionAccumulationReferences,ComprehensionHasMemoryExhaustionVulnerability", "eval/public/cel_options.h:enable_comprehension_vulnerability_check"]}
{"id": "C94", "title": "the memory check refuses no comprehension that uses its accumulator once", "statement": "The check for memory exhaustion looks at every comprehension of an expression, refuses none in whose loop step the accumulator occurs at most once, and refuses nothing the standard macros make of operands it accepts. (Refuted for inner comprehensions that reuse the accumulator's name for their second variable: they are refused although the accumulator does not occur.)", "quantifier": "all expressions", "why_tests_cant": "all expressions, all macro operands", "anchors": ["eval/compiler/comprehension_vulnerability_check.cc:ComprehensionAccumulationReferences,ComprehensionVulnerabilityCheck::OnPreVisit", "eval/compiler/flat_expr_builder.cc:FlatExprVisitor::PreVisitExpr", "parser/macro.cc"]}
{"id": "C95", "title": "the overloads of a function can be told apart", "statement": "Whatever overloads are offered, in whatever order, with renames and releases in between, no two overloads a function declaration holds have the same id or collide, that is, accept each other's parameters pairwise in one direction or the other; an overload is refused as a collision only if some call could go to it and to one already there; and a call with given argument types can go to at most one overload. (Refuted for wrapper types, which all accept null, for types with more than one parameter of which some are dyn, for type parameters and for enums against int; proved for the other types.)", "quantifier": "all histories of a declaration, all overloads, all argument types", "why_tests_cant": "all histories, all types of all depths", "anchors": ["common/decl.cc:TypeIsAssignable,SignaturesOverlap,AddOverloadInternal", "common/decl.h:FunctionDecl::AddOverload,MakeFunctionDecl"]}
{"id": "C96", "title": "adding and finding overloads", "statement": "An overload is added exactly if it has a signature, its id (by default its signature) is new and it collides with none; it comes last, and an overload that is refused changes nothing. Overloads given at once are accepted or refused whatever their order. Every overload is found under its id and under its signature, and no lookup reads beyond the overloads. (Refuted for signatures: another overload may have been given that text as its id; it is found instead, and takes the place of an overload without id.)", "quantifier": "all histories of a declaration, all lists of overloads, all texts looked up", "why_tests_cant": "all histories and orders", "anchors": ["common/decl.cc:AddOverloadInternal,FunctionDecl::FindOverloadById", "common/decl.h:MakeFunctionDecl,FunctionDecl::release_overloads,FunctionDecl::set_name"]}
{"id": "C97", "title": "assignability of declared types", "statement": "Assignability of declared types is reflexive and transitive, overlap of signatures is symmetric, and whatever a declaration lets a parameter take the type checker lets it take. The type parameters reported for an overload are those that occur in its result and arguments. (Refuted for type parameters that occur only in type(...).)", "quantifier": "all types, all pairs of overloads", "why_tests_cant": "all types of all depths", "anchors": ["common/decl.cc:TypeIsAssignable,SignaturesOverlap,OverloadDecl::GetTypeParams,CollectTypeParams", "checker/internal/type_inference_context.cc:TypeInferenceContext::IsAssignable"]}
{"id": "C98", "title": "a type survives the trip through its specification and its text", "statement": "A type has a specification exactly if no part of it is the unknown type or a struct that is not a message; converting the specification, or parsing its text, gives the type back, provided the descriptor pool has its messages and enums. (Refuted for abstract types named like a message of the pool; a type of types without parameter comes back as type(dyn).)", "quantifier": "all types, all descriptor pools", "why_tests_cant": "all types of all depths", "anchors": ["common/type_spec_resolver.cc:ConvertTypeToTypeSpec,ConvertTypeSpecToType", "common/signature.cc:MakeTypeSignature,ParseType", "common/type.cc:Type::Message,Type::Enum"]}
{"id": "C99", "title": "c[?k] is c[k] as an optional", "statement": "c[?k] is an optional of c[k] whenever c[k] has a value and optional.none() whenever c[k] fails for want of the key or because the index is out of range, also when c is itself inside an optional, and optional.none()[?k] is optional.none(). (Refuted: a list takes an index of type uint or double in l[k] but not in l[?k], and m[?null] is optional.none() although m[null] is an error; proved for maps with keys of the lookup kinds and for lists with an int.)", "quantifier": "all evaluators with optional types enabled, all containers, all keys", "why_tests_cant": "all maps, lists, keys and registration histories", "anchors": ["runtime/optional_types.cc:MapOptIndexOptionalValue,ListOptIndexOptionalInt,OptionalOptIndexOptionalValue", "eval/eval/container_access_step.cc:LookupInMap,LookupInList,PerformLookup"]}
{"id": "C100", "title": "m.?f has a value exactly when has(m.f)", "statement": "For a map m, m.?f holds m.f if has(m.f) and is optional.none() otherwise; it equals m[?\"f\"] and what selecting f from optional.of(m) gives; selecting from optional.none() gives optional.none(). hasValue() and value() read back what optional.of was given, and value() of optional.none() is an error.", "quantifier": "all maps, all fields, all values", "why_tests_cant": "all maps, fields and configurations", "anchors": ["runtime/optional_types.cc:SelectOptionalFieldMap,SelectOptionalField,OptionalGetValue,OptionalHasValue", "eval/eval/select_step.cc:SelectStep"]}
{"id": "C101", "title": "optional.ofNonZeroValue is none exactly on defaults", "statement": "optional.ofNonZeroValue(v) is optional.none() exactly if v equals the default of its kind (null, false, 0, 0u, 0.0, the empty string, bytes, list and map, the zero duration and the epoch) and holds v otherwise; optional.ofNonZeroValue(v).orValue(d) with that default d equals v if v contains no NaN.", "quantifier": "all values", "why_tests_cant": "all values of all depths", "anchors": ["runtime/optional_types.cc:OptionalOfNonZeroValue", "common/value.cc:Value::IsZeroValue", "eval/eval/optional_or_step.cc"]}
{"id": "C102", "title": "lists and optionals", "statement": "optional.unwrap(l) and l.unwrapOpt() are what the optionals of l hold, in order, and an error if some element is no optional; they undo optional.of, distribute over concatenation and agree with the list literal whose elements are all optional; l.first() is l[?0] and l.last() is l[?size(l)-1]. No function of optional types puts an error inside an optional.", "quantifier": "all lists, all calls of the functions", "why_tests_cant": "all lists of any length, all values", "anchors": ["runtime/optional_types.cc:ListUnwrapOpt,ListFirst,ListLast,RegisterOptionalTypeFunctions", "eval/eval/create_list_step.cc"]}
{"id": "C103", "title": "enabling optional types", "statement": "Optional types can be enabled exactly if qualified type identifiers and heterogeneous equality are on and no registered function could be confused with one of theirs; enabling them twice fails and changes nothing. A failed attempt registers nothing. (The last is refuted: the functions registered before the one that clashes stay.)", "quantifier": "all registration histories, all options", "why_tests_cant": "all histories of registrations", "anchors": ["runtime/optional_types.cc:EnableOptionalTypes,RegisterOptionalTypeFunctions", "runtime/function_registry.cc:FunctionRegistry::Register"]}
{"id": "C104", "title": "texts of numbers, booleans and bytes are read back", "statement": "string(x) of an int, uint or bool is its shortest numeral, or true or false, and int(), uint() and bool() give x back. int(s) accepts exactly an optional sign and digits between white space that fit 64 bits, uint(s) the same without a minus sign, bool(s) exactly the ten documented texts; everything else is an error. string(b) is b for well-formed UTF-8 and an error otherwise. Converting a converted value again does not change it. (The last is refuted for timestamps in debug builds with the default options, where the second conversion aborts.)", "quantifier": "all values, all texts, all options", "why_tests_cant": "all 64-bit numbers, all texts of any length", "anchors": ["runtime/standard/type_conversion_functions.cc:RegisterIntConversionFunctions,RegisterUintConversionFunctions,RegisterBoolConversionFunctions,RegisterStringConversionFunctions,RegisterBytesConversionFunctions"]}
{"id": "C105", "title": "durations and their texts", "statement": "string(d) is the seconds of d with the shortest exact fraction of three, six or nine digits, and duration() reads it back. duration(s) is the sum of the terms of s (decimal numbers with the units h, m, s, ms, us, ns) if that is in range, and an error otherwise; it accepts nothing else. getHours, getMinutes, getSeconds and getMilliseconds of a duration round towards zero and together give the duration to the millisecond. (Refuted: a term whose whole part does not fit 64 bits is refused although the duration is in range.)", "quantifier": "all durations of whole nanoseconds, all texts", "why_tests_cant": "all durations, all texts of any length", "anchors": ["runtime/standard/type_conversion_functions.cc:CreateDurationFromString", "internal/time.cc:EncodeDurationToJson,ValidateDuration,FormatNanos", "runtime/standard/time_functions.cc:RegisterDurationFunctions"]}
{"id": "C106", "title": "timestamps and their texts", "statement": "string(t) is the date and time of t in UTC as in RFC 3339 with the shortest exact fraction, and timestamp() reads it back. timestamp(s) of a text of RFC 3339 is the instant it names, timestamp(i) is i seconds after 1970 and int(t) the last whole second not after t; instants outside the years 1 to 9999 are errors. (Refuted for the default options, which accept years above 9999, infinite-future and, in debug builds, abort on the next conversion; also fields of one digit and texts that go on after a zero byte are accepted.)", "quantifier": "all timestamps, all texts, all options", "why_tests_cant": "all instants, all texts of any length", "anchors": ["runtime/standard/type_conversion_functions.cc:RegisterTimeConversionFunctions", "internal/time.cc:EncodeTimestampToJson,ValidateTimestamp", "runtime/runtime_options.h:enable_timestamp_duration_overflow_errors"]}
{"id": "C107", "title": "the fields of a timestamp are those of the calendar", "statement": "getFullYear, getMonth, getDate, getDayOfMonth, getHours, getMinutes, getSeconds, getMilliseconds, getDayOfYear and getDayOfWeek are the fields of the Gregorian calendar, counted day by day from 1970-01-01, at the time shifted by the zone: UTC, a zone of the database or hours and minutes. Any other zone is an error. (The last is refuted: other texts with colons are read as durations, 1:30:20 as 31 hours and 20 minutes.)", "quantifier": "all timestamps, all zones, all fields", "why_tests_cant": "all instants and zones", "anchors": ["runtime/standard/time_functions.cc:FindTimeBreakdown,GetTimeBreakdownPart,GetFullYear,GetMonth,GetDayOfYear,GetDayOfMonth,GetDate,GetDayOfWeek,GetHours,GetMinutes,GetSeconds,GetMilliseconds"]}
{"id": "C108", "title": "durations and timestamps survive their messages", "statement": "Encoding a duration or a timestamp in range as a message and decoding it gives it back; the message has nanos below a second, of the sign of the seconds for durations and not negative for timestamps, and is the only such message; a value out of range is an error.", "quantifier": "all durations and timestamps of whole nanoseconds, all messages", "why_tests_cant": "all values and all messages", "anchors": ["internal/proto_time_encoding.cc:EncodeDuration,EncodeTime,DecodeDuration,DecodeTime"]}
{"id": "C109", "title": "values and JSON", "statement": "Exactly the values with JSON (no types, optionals, errors or unknowns, times in range, names as keys) convert to JSON, each to its own: numbers as numbers, integers of magnitude 2^53 or more as decimal texts, bytes in base 64, durations and timestamps as in proto3; any other value is an error. JSON read as a value converts back to the same JSON with nulls for what was unset. A value without NaN, bytes, times or integers from 2^53 is read back as an equal value. (Refuted for the others, which come back as strings; an infinite duration fails a debug check instead of an error.)", "quantifier": "all values, all JSON messages", "why_tests_cant": "values and messages of any depth and size", "anchors": ["common/values/value_builder.cc:ListValueToJsonArray,MapValueToJsonObject,ValueToJsonString", "common/values/parsed_json_value.cc:ParsedJsonValue", "internal/well_known_types.cc:ValueReflection::SetNumberValue,SetStringValueFromBytes,SetStringValueFromDuration,SetStringValueFromTimestamp", "common/values/int_value.cc:ConvertToJson"]}
{"id": "C110", "title": "equality of JSON", "statement": "Two JSON messages are equal exactly if they are the same JSON, where unset is null, numbers are compared by value and the fields of an object come in any order; that is the same as CEL equality of the values they are read as. The relation is symmetric and transitive, and reflexive without NaN.", "quantifier": "all JSON messages", "why_tests_cant": "messages of any depth and size", "anchors": ["internal/json.cc:JsonEquals", "common/values/parsed_json_list_value.cc:Equal", "common/values/parsed_json_map_value.cc:Equal"]}
{"id": "C111", "title": "base64.encode and base64.decode", "statement": "base64.encode writes the bits of the bytes six at a time with padding, and base64.decode reads them back. base64.decode accepts exactly the texts of the alphabet with padding complete or left out, ignoring white space; anything else is an error. (That a text is the only one for its bytes is refuted: bits after the last byte are ignored.)", "quantifier": "all byte strings, all texts", "why_tests_cant": "bytes and texts of any length", "anchors": ["extensions/encoders.cc:Base64Decode,Base64Encode"]}
{"id": "C112", "title": "export of values as JSON by the legacy API", "statement": "ExportAsProtoValue writes a value as JSON with integers as numbers, exact up to 2^53 and never more than 1024 off, the keys of maps as texts, and agrees with the conversion of C109 where integers are below 2^53 and keys are names. (Refuted: larger integers are not told apart, and lists or maps under keys with the same text, as in {1: [true], '1': [false]}, are merged into one field.)", "quantifier": "all values", "why_tests_cant": "values of any depth and size", "anchors": ["eval/public/value_export_util.cc:ExportAsProtoValue,KeyAsString"]}
{"id": "C113", "title": "the order of legacy values in sets", "statement": "CelValueLessThan, CelValueEqual and CelValueGreaterThan order values by kind, then by value: lists by size and then element by element, maps by size and then entry by entry in the order of the keys. Exactly one of the three holds of any two values, and without NaN and with distinct errors the order is a strict weak order, as std::set and std::map need. (Refuted otherwise: NaN is in the place of every double, and a third error can lie between two that say the same.)", "quantifier": "all legacy values", "why_tests_cant": "values of any depth and size, any three of them", "anchors": ["eval/public/set_util.cc:CelValueCompare,CelValueLessThan,CelValueEqual,CelValueGreaterThan"]}
{"id": "C114", "title": "limits checked by validators", "statement": "The AST depth validator accepts exactly the expressions whose tree is no taller than the limit. The comprehension nesting validator accepts exactly those in which no way down the tree passes more than the limit of comprehensions whose range is not the literal []; its report names such an expression and the number. A Validator is valid when all its validations are and reports what they report in turn; applying it to a checker result keeps earlier issues and drops the expression if it is not valid.", "quantifier": "all expressions, limits and lists of validations", "why_tests_cant": "trees of any depth and shape", "anchors": ["validator/validator.cc:Validate,UpdateValidationResult", "validator/ast_depth_validator.cc:AstDepthValidator", "validator/comprehension_nesting_validator.cc:ComprehensionNestingLimitValidator"]}
{"id": "C115", "title": "literals of timestamps and durations are validated as they are converted", "statement": "The timestamp and duration literal validators report the literal arguments of timestamp() and duration() whose conversion at run time (with range checks enabled) is an error, and no others. An expression they accept has no such literal that fails at run time, whatever the options.", "quantifier": "all expressions, all literals", "why_tests_cant": "expressions of any size, literals of any length", "anchors": ["validator/timestamp_literal_validator.cc:ValidateTimestamps,ValidateDurations", "runtime/standard/type_conversion_functions.cc"]}
{"id": "C116", "title": "homogeneous literals", "statement": "The homogeneous literal validator accepts exactly the expressions in which, away from calls of the exempt functions, the elements of every list literal have types alike, and so have the keys and the values of every map literal: equal types, with wrappers taken for what they wrap and optional elements for what is inside. Being alike is an equivalence, so the order of the elements does not matter. (Refuted with error types, which are like all others: [error, 1, 's'] is accepted; an optional element of type optional_type without parameter is undefined.)", "quantifier": "all expressions, all type maps, all lists of exempt functions", "why_tests_cant": "literals of any length at any depth, types of any depth", "anchors": ["validator/homogeneous_literal_validator.cc:HomogeneousLiteralValidator,TypeEquiv,InExemptFunction"]}
{"id": "C117", "title": "literal patterns are validated", "statement": "The regex pattern validator reports the literal strings in the place of the pattern of calls of the configured functions (counting the receiver, by the first configuration of the function) that are not regular expressions, and no others.", "quantifier": "all expressions, all configurations", "why_tests_cant": "expressions of any size and depth", "anchors": ["validator/regex_validator.cc:RegexPatternValidator,CheckPattern"]}
{"id": "C118", "title": "fields visible through masks", "statement": "Given a set of proto type masks, a field of a message type is visible exactly if no mask restricts the type or one of the paths of the masks goes through the field. The set is accepted exactly if its types exist, every name of every path can be selected in turn, and no type is both said to have no visible fields and given one. The order of masks and paths does not matter.", "quantifier": "all descriptor pools, all sets of masks, all types and fields", "why_tests_cant": "pools and masks of any size, paths of any length, recursive message types", "anchors": ["checker/internal/proto_type_mask_registry.cc:ComputeVisibleFieldsMap,FieldIsVisible", "checker/internal/proto_type_mask.cc:FindMessage,FindField", "checker/internal/field_path.h:FieldPath"]}
{"id": "C119", "title": "masked context declarations hide fields", "statement": "After AddContextDeclarationWithProtoTypeMask, expressions can use as variables the fields that start one of the paths, and can select, in the message types the paths enter, only the fields they go through; the paths of several calls add up. (Refuted for calls made by a library: every configuration applied later replaces its masks, and the fields they hide can be selected. Refuted for refused calls: the mask of a call that returned an error still makes its fields visible. Refuted with JSON field names: a listed field cannot be selected.)", "quantifier": "all descriptor pools, all sequences of calls, all libraries", "why_tests_cant": "pools of any size, any number of declarations and libraries", "anchors": ["checker/internal/type_checker_builder_impl.cc:AddContextDeclarationWithProtoTypeMask,AddContextDeclarationVariables,ApplyConfig,ConfigureTypeCheckEnv", "checker/internal/type_check_env.h:CreateProtoTypeMaskRegistry", "checker/internal/type_check_env.cc:LookupStructField"]}
{"id": "C120", "title": "regex.extract and regex.extractAll give the matches", "statement": "regex.extract gives the leftmost match of the pattern in the target, or the text of its only group, and none if there is no match. regex.extractAll ends for every pattern and target and gives all matches that are not empty and do not overlap, from left to right; what it gives are pieces of the target in order, and the first is what extract gives. Bad patterns and patterns with more than one group are errors. (Refuted for patterns that look at what is before the match: regex.extractAll('aaa', '^a') has three elements.)", "quantifier": "all patterns and targets, any RE2 that finds matches inside the text", "why_tests_cant": "targets of any length, arbitrary patterns including those that match the empty text", "anchors": ["extensions/regex_ext.cc:Extract,ExtractAll"]}
{"id": "C121", "title": "regex.replace replaces as many matches as it is told", "statement": "regex.replace without a count, or with a negative one, ends and replaces all matches that do not overlap; with a count n it replaces the first n of them, so any count that is at least the number of matches is as good as none. (Refuted for patterns that look at what is before: replacing '^a' in 'aaa' twice changes two characters, replacing all of it one. Refuted for patterns that match the empty text: all n replacements are made at the same place, so the work and the result grow with n whatever the target. Refuted for counts of 2^31 and more: the counter overflows.)", "quantifier": "all patterns, targets, replacement strings and counts", "why_tests_cant": "targets of any length, counts over the whole range of int", "anchors": ["extensions/regex_ext.cc:ReplaceAll,ReplaceN"]}
{"id": "C122", "title": "replacement strings are checked", "statement": "regex.replace accepts exactly the replacement strings made of characters other than the backslash, of \\\\ and of \\0 to \\9 where the pattern has a group of that number, and reports the others as invalid arguments; each match is replaced by the string with the texts of its groups in place; the internal error for a rewrite that fails after that check is never given. (Refuted for the count 0: bad patterns and replacement strings are not reported.)", "quantifier": "all replacement strings, patterns with any number of groups", "why_tests_cant": "strings of any length", "anchors": ["extensions/regex_ext.cc:ReplaceAll,ReplaceN"]}
{"id": "C123", "title": "one macro for each shape of call", "statement": "Macros can be made for identifiers only. After any sequence of registrations, the macro found for a call (name, number of arguments, receiver or global) is the one registered for just that number, else the one registered for any number, else none. A registration of several macros is all or nothing: it is refused just if two macros, new or registered, are for the same calls, and then no call finds another macro than before.", "quantifier": "all sequences of registrations, all lists of macros, all calls", "why_tests_cant": "any number of macros, arbitrary names and numbers of arguments", "anchors": ["parser/macro.cc:Key,Make", "parser/macro_registry.cc:RegisterMacro,RegisterMacros,FindMacro"]}
{"id": "C124", "title": "a parser has the macros its builder was asked for", "statement": "Build succeeds just if no two macros that were asked for are for the same calls, nor two of one library, and the parser then expands just those: the macros of the libraries, less those a subset leaves out, the standard macros unless they are disabled or come with a library of that name, the optional macros likewise, and the macros added alone. No two libraries have the same name. The builder made from a parser builds a parser with the same macros, in whatever order the hash map lists them.", "quantifier": "all sequences of calls of the builder, all libraries, subsets and options, all orders of a hash map", "why_tests_cant": "any number of libraries and macros, all iteration orders", "anchors": ["parser/parser.cc:ParserBuilderImpl,ParserImpl::ToBuilder", "parser/macro_registry.cc:ListMacros"]}
{"id": "C125", "title": "a call finds the function of the innermost container", "statement": "A call of a name in a container, planned with reference resolution on, finds the overloads registered under that name in the innermost container that has some with that number of arguments, a name with a leading dot only the ones in the root, and a warning is given just if no container has one. (Refuted in general: a name that was resolved is resolved in the container once more when it is planned; in the container a, the call f(x) finds a.a.f although a.f is registered, and even if just f and a.a.f are. Proved for eager functions where no function is called like a candidate behind another container.)", "quantifier": "all registries of eager functions, containers, names and numbers of arguments", "why_tests_cant": "containers and names with any number of parts, any number of registered functions", "anchors": ["eval/compiler/qualified_reference_resolver.cc:BestOverloadMatch,OverloadExists,IsSpecialFunction", "eval/compiler/resolver.cc:FindOverloads,FindLazyOverloads,FullyQualifiedNames"]}
{"id": "C126", "title": "the references of a checked expression are put in", "statement": "Resolving references ends for every expression. Wherever it is, a qualified name x.f1.f2... becomes the variable given to its longest part with a reference, with the remaining fields selected from it; a part with an integer value becomes that integer; a call without receiver gets its resolved name, with a warning just if there is none. A receiver without references is taken for a namespace, and is no receiver any more, just if a function is found under the qualified name; a receiver that is a variable stays one. (Refuted for variables written by just their name: if x is a variable by the references and a function x.f is registered in the runtime, x.f(1) becomes a call of that function, not of the method f.)", "quantifier": "all expressions, reference maps, registries and containers", "why_tests_cant": "expressions of any size, names with any number of parts, arbitrary reference maps", "anchors": ["eval/compiler/qualified_reference_resolver.cc:PreVisitRewrite,PostVisitRewrite,MaybeUpdateCallNode,MaybeUpdateSelectNode,MaybeUpdateIdentNode,ToNamespace,ResolveReferences,UpdateAst"]}
{"id": "C127", "title": "the text of a type says which type it is", "statement": "FormatTypeName ends for every type, however deeply nested, and writes it as its name followed by its parameters in brackets, in order and separated by commas, so that the text of a type contains the texts of its parameters; two types with the same text are the same. (Refuted in general: enums are written as int, functions as errors, and a message, an opaque type and a type parameter of the same name look alike, so a checker can say that list(int) is not list(int). Proved for types without enums and functions whose names have no brackets nor commas, are not names of built-in types, and tell messages, opaque types and type parameters apart.)", "quantifier": "all types", "why_tests_cant": "types nested to any depth, opaque types with any number of parameters, arbitrary names", "anchors": ["common/format_type_name.cc:FormatImpl,FormatTypeName"]}
{"id": "C128", "title": "the values of registered enums", "statement": "Whatever enums are registered and however many threads ask for the table of enum values at the same time, in any order, each is given the number that every enumerator was last registered with and nothing else; threads with no registration in between are given the same table, and a table that was given never changes. (Refuted where asking overlaps with a registration: a table without the new enum can be left behind, which everyone is then given for good. Refuted for enumerators with dots in their names: two enums can then claim one name, and the order of a hash map decides. Proved where registrations overlap with nothing and enumerators have no dots.)", "quantifier": "all histories of registrations, any number of threads, all schedules, all orders of a hash map", "why_tests_cant": "any number of threads and enums, all interleavings", "anchors": ["runtime/type_registry.cc:RegisterEnum,GetEnumValueTable", "runtime/type_registry.h:TypeRegistry"]}
{"id": "C129", "title": "configurations of environments are consistent", "statement": "After any calls on a Config, each extension is included in one version, each variable once and with no value or one of its type, and the standard library is not limited both by what is included and by what is excluded, nor by a function as a whole and one of its overloads. A call is accepted just if it keeps that so, and then adds just what it says; else it fails and changes nothing. A compiler made from it has just those overloads and macros of the standard library that the limits leave, by the name of the function, the id or the signature of the overload, and the name of the macro.", "quantifier": "all sequences of calls, all limits, overloads and macros", "why_tests_cant": "any number of calls and entries", "anchors": ["env/config.cc:AddExtensionConfig,SetStandardLibraryConfig,AddVariableConfig,AddFunctionConfig", "env/env.cc:ShouldIncludeMacro,ShouldIncludeFunction"]}
