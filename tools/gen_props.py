#!/usr/bin/env python3
"""Writes ../properties.jsonl.  One tuple per property."""
import json, os
P = []
def p(id, title, statement, quantifier, why, anchors):
    P.append(dict(id=id, title=title, statement=statement, quantifier=quantifier,
                  why_tests_cant=why, anchors=anchors))

# ---------------------------------------------------------------- numbers
p("C01", "int and uint arithmetic is exact or an error",
  "For int and uint operands, +, -, *, unary -, / and % return the exact mathematical result (division truncating toward zero, remainder with the sign of the dividend) whenever that result is representable in the 64-bit type, and otherwise return an error value: they never wrap, never trap, and never return an error for a representable result (single exception: INT64_MIN % -1 fails exactly like INT64_MIN / -1).",
  "all pairs of 64-bit signed values, all pairs of 64-bit unsigned values, all operators",
  "2^128 operand pairs per operator; the boundary conditions are different for every operator",
  ["internal/overflow.cc:CheckedAdd,CheckedSub,CheckedNegation,CheckedMul,CheckedDiv,CheckedMod", "runtime/standard/arithmetic_functions.cc"])
p("C02", "the division law",
  "Whenever a / b and a % b both evaluate to values q and r, then q * b + r evaluates to a without error, |r| < |b|, and a / b is an error exactly when a % b is an error.",
  "all pairs of int operands and all pairs of uint operands", "a law relating four operators over all operand pairs",
  ["internal/overflow.cc:CheckedDiv,CheckedMod", "runtime/standard/arithmetic_functions.cc:Div,Modulo"])
p("C03", "numeric comparison agrees with the mathematical order",
  "For numbers of any of the types int, uint and double, a < b, a <= b, a > b, a >= b and a == b agree with the mathematical order of the two numbers, with every comparison involving NaN false. (The full statement is refuted for int/uint against double outside +-2^53; it holds for every int/uint pair, every same-type pair, and every int or uint of magnitude at most 2^53 against any double.)",
  "all pairs of numeric values of all three types including infinities, NaN and signed zero",
  "mixed-type comparison goes through a lossy conversion; which operands are affected can only be settled by a proof over all of them",
  ["internal/number.h:Number,DoubleCompareVisitor,UintCompareVisitor,IntCompareVisitor", "runtime/standard/comparison_functions.cc:CrossNumericLessThan"])
p("C04", "numeric comparison operators are mutually consistent",
  "For any two numbers of any numeric types: a < b iff b > a; a <= b iff b >= a; a == b iff b == a; if neither is NaN exactly one of a < b, a == b, a > b holds; if either is NaN none of <, <=, ==, >=, > holds; a <= b iff a < b or a == b.",
  "all pairs of numeric values, all combinations of the three types",
  "trichotomy is a universally quantified law across nine type combinations",
  ["internal/number.h:Number::operator<,operator==", "runtime/standard/comparison_functions.cc"])
p("C05", "numeric equality is an equivalence",
  "Numeric == is reflexive on non-NaN values, symmetric and transitive. (Transitivity is refuted once doubles are mixed with ints beyond 2^53; it holds over ints and uints, and over all numbers whose integers have magnitude at most 2^53.)",
  "all triples of numeric values", "a counterexample needs three related values out of 2^192",
  ["internal/number.h:Number", "runtime/standard/equality_functions.cc:ValueEqualImpl"])
p("C06", "numeric type conversion is truncation or an error",
  "int(d), uint(d), int(u), uint(i) return the operand truncated toward zero if the operand is inside the documented range of the target type, and an error otherwise; no out-of-range cast (undefined behaviour) is ever executed; converting an int to uint and back, or a uint to int and back, is the identity whenever both steps succeed.",
  "all doubles including NaN, infinities, subnormals and the neighbours of 2^63 and 2^64; all ints; all uints",
  "the dangerous inputs are single points in a 2^64 space", 
  ["internal/overflow.cc:CheckedDoubleToInt64,CheckedDoubleToUint64,CheckedInt64ToUint64,CheckedUint64ToInt64", "runtime/standard/type_conversion_functions.cc:RegisterIntConversionFunctions,RegisterUintConversionFunctions"])
p("C07", "lossless numeric key conversion",
  "A number is usable as an int (resp. uint) list index or map key exactly when its mathematical value is an integer that the key type can hold, and then the key used is that integer; the double-to-integer cast is only executed on in-range values.",
  "all doubles, ints and uints", "the boundary doubles 2^63, 2^64 and their neighbours are the whole point and are 1 in 2^64",
  ["internal/number.h:LosslessConvertibleToIntVisitor,LosslessConvertibleToUintVisitor,ConversionVisitor"])
p("C08", "timestamp and duration arithmetic stays in range and is invertible",
  "Duration +, -, unary - and timestamp +- duration and timestamp - timestamp return the exact result if it lies in the supported range and otherwise an error; in particular (t + d) - d is t whenever both steps succeed, and no result outside the supported timestamp range is ever produced.",
  "all in-range durations and timestamps (seconds and nanoseconds)", "second/nanosecond carry and range checks interact at the boundaries",
  ["internal/overflow.cc:CheckedAdd(absl::Time,absl::Duration),CheckedSub", "runtime/standard/time_functions.cc"])

# ---------------------------------------------------------------- text
p("C09", "UTF-8 encode/decode round trip",
  "Decoding the encoding of any Unicode scalar value, followed by any bytes, yields that scalar value and the length of its encoding; anything that is not a scalar value is encoded as U+FFFD; decoding always reports between 1 and 4 code units and never more than are available.",
  "all code points and all byte suffixes", "the input space includes arbitrary trailing bytes and truncated input",
  ["internal/utf8.cc:Utf8Encode,Utf8Decode", "internal/unicode.h:UnicodeIsValid"])
p("C10", "UTF-8 validation accepts exactly the well-formed strings",
  "The validity test accepts a byte string iff it is a concatenation of encodings of Unicode scalar values, and for those strings the reported code point count is the number of scalar values; hence size(string) is the number of code points.",
  "all byte strings of all lengths", "overlong forms, surrogates and truncated sequences at every position of arbitrarily long input",
  ["internal/utf8.cc:Utf8IsValid,Utf8CodePointCount,Utf8Validate"])
p("C11", "string literal round trip",
  "Formatting any valid UTF-8 string as a CEL string literal and parsing that literal gives back exactly the original string.",
  "all well-formed UTF-8 strings of all lengths, with all mixtures of quotes, backslashes, control and non-ASCII characters",
  "escaping and quoting choices depend on the whole string",
  ["internal/strings.cc:FormatStringLiteral,ParseStringLiteral,EscapeInternal,UnescapeInternal"])
p("C12", "bytes literal round trip",
  "Formatting any byte string as a CEL bytes literal and parsing that literal gives back exactly the original bytes.",
  "all byte strings", "256^n inputs; octal/hex escapes followed by digits are the classic trap",
  ["internal/strings.cc:FormatBytesLiteral,ParseBytesLiteral,EscapeBytes"])
p("C13", "source positions and line/column locations are inverse",
  "For every source text and every position within it, converting the position to line and column and back gives the same position, the column is the number of code points since the last newline and the line is one more than the number of newlines before the position.",
  "all well-formed source texts shorter than 2^31 - 1 bytes (the exact limit is C43) and all positions in them", "depends on newline placement in arbitrary texts",
  ["common/source.cc:Source::GetLocation,GetPosition,FindLine,FindLinePosition,NewSourceImpl"])

# ---------------------------------------------------------------- values
p("C14", "value equality is reflexive away from NaN",
  "v == v evaluates to true for every value built from null, booleans, numbers, strings, bytes, durations, timestamps, types, optionals, lists and maps that contains no NaN, at any nesting depth.",
  "all finite nested values", "arbitrary nesting",
  ["runtime/standard/equality_functions.cc:ValueEqualImpl,ListEqual,MapEqual"])
p("C15", "value equality is symmetric",
  "a == b and b == a evaluate to the same result. (Refuted: a map holding both int and uint spellings of one number equals a map that does not equal it back. Proved for all values in which no map has two numerically equal keys.)",
  "all pairs of finite nested values", "the counterexample needs two specially constructed maps",
  ["runtime/standard/equality_functions.cc:MapEqual,CheckAlternativeNumericType"])
p("C16", "map literals hold each key once and lookups return what was inserted",
  "Building a map from a sequence of entries either fails (invalid key kind, or a repeated key) or yields a map whose size is the number of entries, in which looking up each inserted key yields its inserted value, iteration visits every entry exactly once (in some order), and looking up any other key reports absence.",
  "all entry sequences", "all sequences of insertions of all lengths",
  ["common/values/value_builder.cc:MapValueBuilderImpl::Put", "common/values/map_value.cc:CheckMapKey", "eval/eval/create_map_step.cc"])
p("C17", "list membership agrees with equality",
  "x in list is true iff some element e of the list has e == x. (Refuted when elements contain maps with numerically equal keys of different kinds; proved otherwise.)",
  "all values x and all lists", "two independent implementations of equality must agree on all nested values",
  ["common/values/value_builder.cc:ListValueImpl::Contains", "eval/eval/equality_steps.cc:EvaluateIn", "runtime/standard/container_membership_functions.cc:HeterogeneousEqualityIn"])
p("C18", "map membership and indexing agree with numeric equality of keys",
  "k in m is true iff m has a key that equals k, and then m[k] does not fail; this holds for the built-in fast path and for the registered function overloads alike. (Refuted for the registered uint overload, which drops the int alternative; proved for the others.)",
  "all keys of all types and all maps", "four key kinds, three lookup paths, every map",
  ["runtime/standard/container_membership_functions.cc:uintKeyInSet", "eval/eval/equality_steps.cc:EvaluateInMap", "eval/eval/container_access_step.cc:LookupInMap"])

# ---------------------------------------------------------------- evaluator
p("C19", "logical operators absorb errors and commute",
  "a && b is false if either operand is false, true if both are true, and otherwise an error or unknown; a || b dually; the boolean results are independent of operand order and unaffected by an error, unknown or non-boolean on the other side; && and || are De Morgan duals under !.",
  "all pairs of operand values including errors, unknowns and non-booleans", "the operand space is all values",
  ["eval/eval/logic_step.cc:LogicalOpStep::Calculate,DirectLogicStep,ExhaustiveDirectLogicStep"])
p("C20", "short-circuiting does not change results",
  "For every expression and activation (without unknown tracking), evaluating with short-circuiting disabled returns the same value as evaluating with short-circuiting enabled, as long as the exhaustive evaluation completes.",
  "all expressions, all activations, all function implementations without side effects", "all programs",
  ["eval/eval/logic_step.cc", "eval/eval/ternary_step.cc", "eval/eval/comprehension_step.cc", "runtime/runtime_options.h:short_circuiting"])
p("C21", "the planned iterative program computes the meaning of the expression",
  "For every expression, executing the flat step program planned for it leaves exactly one value, and this value is the one given by the reference (tree) semantics of the expression. (Refuted in general because of C25; proved for programs without cel.bind-style lazy slots, and with them when short-circuiting is off.)",
  "all expressions of any depth, all activations, all registered functions", "the compiler's jump offsets and slot numbers must be right for every nesting",
  ["eval/compiler/flat_expr_builder.cc:FlatExprVisitor", "eval/eval/evaluator_core.cc:ExecutionFrame::Evaluate"])
p("C22", "recursive and iterative plans agree",
  "For every expression, the recursively planned program (max_recursion_depth -1) and the iterative program (max_recursion_depth 0) produce the same value, up to which of several errors is reported. (Refuted for loop steps that read the accumulator after writing it, map literals with colliding keys, has() on optionals, unknown tracking, and because of C25; proved for the expressions the macros produce, with map literals that have distinct constant keys.)",
  "all expressions and activations", "two complete implementations must agree on all programs",
  ["eval/compiler/flat_expr_builder.cc:MaybeMakeDirectRecursive...", "eval/eval/direct_expression_step.h"])
p("C23", "evaluation is well behaved on every planned program",
  "Running any planned program never underflows the value stack, never jumps outside the program, never reads a comprehension slot before it is set, never pops an absent iterator or call frame, always terminates, and ends with exactly one value on the stack, an empty iterator stack and an empty call stack.",
  "all expressions, all activations", "memory safety of an interpreter over all programs",
  ["eval/eval/evaluator_stack.h", "eval/eval/evaluator_core.cc", "eval/eval/comprehension_step.cc", "eval/eval/jump_step.cc"])
p("C24", "comprehension iteration budget",
  "With comprehension_max_iterations = N > 0 no evaluation executes more than N - 1 loop bodies in total over all comprehensions, nested ones included; an evaluation whose unlimited run needs at most N - 1 returns exactly the unlimited result; otherwise evaluation fails with the budget error; N = 0 never fails.",
  "all expressions, activations and budgets", "nested loops share one counter; counting all executions of all programs",
  ["eval/eval/evaluator_core.h:IncrementIterations", "eval/eval/comprehension_step.cc", "runtime/runtime_options.h:comprehension_max_iterations"])
p("C25", "comprehension and bind variables are local",
  "A variable introduced by a comprehension or by cel.bind never influences the value of any expression outside its scope: sibling sub-expressions evaluate as if the comprehension had not run. (Refuted for the default iterative planner: a short-circuited comprehension leaves its iteration slot set and a sibling cel.bind that reuses the slot reads the stale value. Proved for the recursive planner and for short-circuiting off.)",
  "all expressions and activations", "requires a particular combination of early exit, slot reuse and laziness",
  ["eval/eval/comprehension_step.cc:ComprehensionCondStep,ComprehensionFinishStep", "eval/eval/lazy_init_step.cc:LazyInitStep", "eval/compiler/flat_expr_builder.cc:IndexManager,LookupSlot"])
p("C26", "standard macros compute their documented meaning",
  "For every list or map range and every predicate expression, all / exists / exists_one / map / filter evaluate to the documented value: e.g. exists is true if some element satisfies the predicate even when the predicate errors on others, false if all are false, error otherwise; filter returns exactly the satisfying elements in order; map the images in order.",
  "all ranges of all lengths and all predicates", "list length is unbounded and predicates may error at any element",
  ["parser/macro.cc:ExpandAllMacro,ExpandExistsMacro,ExpandExistsOneMacro,ExpandMap2Macro,ExpandMap3Macro,ExpandFilterMacro", "eval/eval/comprehension_step.cc"])
p("C27", "strict functions propagate the first error",
  "A call to a strict function with an error argument never invokes the function and evaluates to the leftmost error argument; with no error argument the registered overload matching the runtime kinds is invoked exactly on the argument values; with no match the result is a no-matching-overload error.",
  "all argument vectors, all registries", "all combinations of argument values",
  ["eval/eval/function_step.cc:AbstractFunctionStep::DoEvaluate,NoOverloadResult,ResolveStatic,DirectFunctionStepImpl"])
p("C28", "overload resolution does not depend on registration order",
  "After any sequence of successful registrations at most one registered overload of a name accepts any given runtime argument kinds and call style, so the implementation selected by a call is the same for every order of the same registrations; a registration that would create an ambiguity is rejected and leaves the registry unchanged.",
  "all registration sequences and all argument kinds", "all histories of registrations",
  ["runtime/function_registry.cc:FunctionRegistry::Register,DescriptorRegistered", "common/function_descriptor.cc:ShapeMatches", "eval/eval/function_step.cc:ArgumentKindsMatch"])
p("C29", "cel.bind evaluates its initialiser lazily, at most once, and means substitution",
  "cel.bind(x, e1, e2) evaluates to the value of e2 with x bound to the value of e1; e1 is evaluated at most once, and not at all if e2 never reads x.",
  "all initialisers, bodies and activations", "counts evaluations over all executions",
  ["eval/eval/lazy_init_step.cc", "eval/compiler/flat_expr_builder.cc:PreVisitComprehension,LookupSlot"])

# ---------------------------------------------------------------- unknowns
p("C30", "attribute pattern matching is prefix matching",
  "An attribute fully matches a pattern iff the pattern, with wildcards matching any qualifier, is a prefix of the attribute path; it partially matches iff the attribute is a proper prefix of some attribute the pattern fully matches; extending an attribute never loses a full match.",
  "all attributes and all patterns of all lengths", "unbounded path lengths and wildcard placements",
  ["base/attribute.h:AttributePattern::IsMatch,AttributeQualifierPattern::IsMatch", "eval/eval/attribute_utility.cc:MatchAgainstPatterns"])
p("C31", "unknown sets are merged as sets",
  "The unknown set reported for a call or aggregate is exactly the union of the unknown sets of its operands and of the attributes of its partially or fully unknown operands; merging is associative, commutative and idempotent and never drops an attribute.",
  "all operand vectors", "set algebra over arbitrary operand lists",
  ["eval/eval/attribute_utility.cc:MergeUnknowns,IdentifyAndMergeUnknowns", "base/internal/unknown_set.h", "base/attribute_set.h"])
p("C32", "partial evaluation is sound",
  "If evaluation with a set of attributes marked unknown yields a non-unknown result, then evaluation with those attributes given any values whatsoever yields the same result.",
  "all expressions, all sets of unknown attribute patterns, all completions", "quantifies over all completions of the unknown data",
  ["eval/eval/attribute_utility.cc", "eval/eval/ident_step.cc", "eval/eval/select_step.cc", "eval/eval/logic_step.cc"])

# ---------------------------------------------------------------- parser / checker
p("C33", "logical operator balancing preserves the operand sequence",
  "A chain e1 op e2 op ... op en parsed with balancing has exactly the operands e1..en in order as its leaves, contains n-1 operator nodes each using its own source position id, and has depth at most ceil(log2 n); it evaluates to the same result as the left-associated chain, and so does the variadic form (when some operand is neither a boolean nor an error nor an unknown, up to which error is reported).",
  "all chain lengths up to 2^30 and all operands", "unbounded chain length",
  ["parser/parser.cc:ExpressionBalancer::BalancedTree,AddTerm,Balance"])
p("C34", "name resolution tries containers innermost first",
  "Resolving a name in container a.b.c tries a.b.c.name, a.b.name, a.name, name, in this order, each exactly once; a leading dot tries only the root; an alias replaces the first segment and suppresses the containers; for dotted names each container is tried with the longest qualified prefix first.",
  "all containers, all (partly qualified) names, all alias tables", "all lengths of containers and names",
  ["checker/internal/namespace_generator.cc:NamespaceGenerator::GenerateCandidates"])
p("C35", "type inference never creates a cyclic type and always terminates",
  "Whatever sequence of assignability checks is made, the set of inferred type variable bindings is acyclic, so every substitution terminates; the check itself terminates.",
  "all sequences of assignability checks over all types", "cycles need crafted sequences of unifications",
  ["checker/internal/type_inference_context.cc:IsAssignableInternal,OccursWithin,Substitute"])
p("C36", "assignability accepts what it should",
  "Every type is assignable to itself; dyn and any are assignable to and from every type; a failed check leaves the inferred bindings unchanged; on success the two types become equal after full substitution or differ only by dyn/any/error, wrapper or null widening.",
  "all types and binding states", "all type trees", ["checker/internal/type_inference_context.cc:IsAssignable,IsAssignableWithConstraints"])

# ---------------------------------------------------------------- extensions
p("C37", "sets extension laws",
  "sets.contains(a, b) is true iff every element of b equals some element of a; sets.intersects(a, b) iff some element is common, and is symmetric; sets.equivalent(a, b) iff each contains the other, and is an equivalence on lists without NaN whose elements' equality is transitive.",
  "all pairs/triples of lists", "all lists", ["extensions/sets_functions.cc"])
p("C38", "list extension functions",
  "slice(l, i, j) returns elements i..j-1 or an error when indices are negative, reversed or past the end; reverse is an involution; flatten(d) removes exactly d levels of nesting and is idempotent once flat; distinct keeps the first of each group of equal elements in order; range(n) is 0..n-1; sort returns an ordered permutation.",
  "all lists, indices and depths", "all lists of all lengths", ["extensions/lists_functions.cc"])
p("C39", "math extension functions",
  "math.greatest/least return one of their arguments and it is not less/greater than any other NaN-free argument; abs, sign, bit operations and shifts agree with two's complement arithmetic on Z, and error exactly when documented (abs of the minimum int, negative shifts).",
  "all numeric arguments", "2^64 values per operand", ["extensions/math_ext.cc"])

here = os.path.dirname(os.path.abspath(__file__))
extra = os.path.join(here, "props_extra.py")
if os.path.exists(extra):
    exec(open(extra).read())
with open(os.path.join(here, "..", "properties.jsonl"), "w") as f:
    for o in P:
        f.write(json.dumps(o) + "\n")
print(len(P))
