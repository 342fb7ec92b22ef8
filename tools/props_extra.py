# Properties added as the model grew.
p("C40", "parsed string values are well-formed UTF-8",
  "Whatever bytes are given to the string literal parser or to string unescaping, a successful result is well-formed UTF-8 (no escape can produce a surrogate or a stray byte).",
  "all byte strings", "all inputs, including malformed UTF-8 and every combination of escapes",
  ["internal/strings.cc:ParseStringLiteral,UnescapeString,UnescapeInternal"])
p("C41", "escape sequences are decoded exactly as the language defines",
  "Unescaping succeeds exactly on the texts derivable in the CEL escape grammar and yields exactly the value the grammar assigns: octal, hex, \\u, \\U and single-character escapes, CR and CRLF normalisation, raw literals without escapes.",
  "all byte strings, string and bytes literals, raw and cooked", "unbounded grammar, accept and reject directions",
  ["internal/strings.cc:UnescapeInternal,ParseStringLiteral,ParseBytesLiteral"])
p("C42", "string and Cord forms of the UTF-8 functions agree",
  "For every byte string, validity, validation and code point count give the same answer whether the text is held as a flat string or as a Cord.",
  "all byte strings", "depends on the interplay of peeking and malformed input",
  ["internal/utf8.cc:CordReader,Utf8CodePointCount,Utf8IsValid,Utf8Validate"])
p("C43", "source creation is defined for every text",
  "Creating a source from any text either succeeds or reports an error; it never overflows the 32-bit position type.",
  "all texts of all sizes", "the boundary needs a text of 2 GiB",
  ["common/source.cc:NewSourceImpl,NewSource"])
p("C44", "== and != decide the documented equality of values",
  "a == b always answers true or false and a != b the opposite; it is true exactly when a and b are equal as CEL documents it: numbers by value, strings, bytes, times and types by content, lists elementwise, maps when their entries can be paired off with equal keys and values, optionals by content. (Refuted for optionals that hold maps whose keys are numerically equal but of different kinds.)",
  "all pairs of finite nested values", "all nesting depths and all pairs of kinds",
  ["runtime/standard/equality_functions.cc:ValueEqualImpl,ListEqual,MapEqual", "common/value.cc:Value::Equal", "eval/eval/equality_steps.cc:EvaluateEquality"])
p("C45", "an optional never holds an error",
  "Indexing an optional value yields an empty optional, an optional that holds the value found, or an error; the content of an optional is never an error. (Refuted: an optional list indexed out of range, or any optional indexed with a key of a wrong type, yields an optional that holds the error.)",
  "all optionals and all keys", "all containers and all keys, including failing lookups",
  ["eval/eval/container_access_step.cc:PerformLookup,LookupInContainer", "common/optional.h:OptionalValue::Of"])
p("C46", "two-variable macros compute their documented meaning",
  "For every list (index, element) or map (key, value) range: exists / all / existsOne decide the predicate over the pairs; transformList collects the images in order, where the filter is true; transformMap builds the map from the first variable to the image; transformMapEntry builds the union of the entry maps, a key given twice being an error. A predicate's or image's error is the result as documented, and the call is rejected at parse time unless the variables are two different simple identifiers.",
  "all ranges, predicates, images and iteration orders of built maps", "all lengths, key collisions and error positions",
  ["extensions/comprehensions_v2_macros.cc:ExpandAllMacro2 ... ExpandTransformMapEntry4Macro", "extensions/comprehensions_v2_functions.cc:MapInsertKeyValue,MapInsertMap"])
p("C47", "optMap and optFlatMap mean what they say",
  "With short-circuiting: on an empty optional they yield the empty optional without evaluating the body; on an optional holding v they yield the body's value with the variable bound to v, wrapped (optMap) or as it is (optFlatMap); an error of the operand or the body is the result.",
  "all operands, bodies and activations", "all expressions",
  ["parser/macro.cc:ExpandOptMapMacro,ExpandOptFlatMapMacro", "runtime/optional_types.cc:OptionalOf,OptionalNone,OptionalHasValue,OptionalGetValue"])
p("C48", "containers and aliases stay consistent",
  "After any sequence of SetContainer, AddAlias, AddAbbreviation and clear: the container is empty or a dotted sequence of identifiers, every alias is an identifier standing for a valid qualified name, no alias is defined twice and none is the first segment of the container. Each call succeeds exactly when this would stay so, and a failed call changes nothing. An abbreviation is an alias named after its last segment.",
  "all histories of calls with arbitrary texts", "unbounded histories",
  ["common/container.cc:ExpressionContainer::SetContainer,AddAlias,AddAbbreviation,FindAlias", "internal/lexis.cc:LexisIsIdentifier"])
p("C49", "a call in a container finds the innermost function",
  "Calling f in container a.b.c uses the overloads of the right style and arity registered under the innermost of a.b.c.f, a.b.f, a.f, f that has any, with a leading dot those of f alone, whether they are registered eagerly or lazily. (Refuted for lazy functions: they are looked up under the unqualified name only, so one declared in the container is not found and one at the root hides an eager function of the container.)",
  "all registries, containers and names", "all histories of registrations and all containers",
  ["eval/compiler/resolver.cc:Resolver::FindOverloads,FindLazyOverloads,GetPrefixesFor", "eval/compiler/flat_expr_builder.cc:AddResolvedFunctionStep"])
p("C50", "math.greatest and math.least accept any number of arguments",
  "math.greatest(a, b, ...) and math.least(a, b, ...) yield the greatest and least of the arguments' values for every number of arguments, or of a list's elements when given one list; the first argument that evaluates to an error is the result. A call is rejected at parse time exactly when it has no argument or an argument that cannot be a number, and a call whose receiver is not `math` is left alone.",
  "all argument lists, registries with the math library, and activations", "all arities and all expressions",
  ["extensions/math_ext_macros.cc:math_macros,IsValidArgType,IsListLiteralWithValidArgs,CheckInvalidArgs", "extensions/math_ext.cc:RegisterMathExtensionFunctions"])
p("C51", "list and map literals get the common type of their elements",
  "The checker types a list literal as a list of the elements' common type when the type variables in the element types can be chosen so that they agree, and as a list of dyn otherwise, in which case it binds no type variable; likewise for the keys and values of a map literal, whatever their order. (Refuted for maps with null and message values: the literal's value type is then null when the null comes first, although the same elements in a list are given the message type.)",
  "all element types and all histories of the inference context", "unbounded types and histories",
  ["checker/internal/type_checker_impl.cc:ResolveVisitor::PostVisitList,PostVisitMap", "checker/internal/type_inference_context.cc:IsAssignableInternal,InstantiateTypeParams"])
p("C52", "a recursion limit only affects planning",
  "With max_recursion_depth = n > 0 planning either fails with the recursion depth error or yields the same program as without a limit; that program's evaluation never nests more than n steps, so it gives exactly what it gives without a limit; a larger limit accepts whatever a smaller one accepts, and every expression is accepted with some limit.",
  "all expressions, limits and activations", "all nestings of steps, including the lazily evaluated initialisers of cel.bind",
  ["eval/compiler/flat_expr_builder.cc:SetRecursiveStep", "eval/compiler/flat_expr_builder_extensions.cc:RecursiveDependencyDepth", "eval/eval/direct_expression_step.h"])
p("C53", "comprehension iteration budget in recursive programs",
  "C24 for recursively planned programs: with comprehension_max_iterations = N > 0 no evaluation executes more than N - 1 loop bodies in total; one whose unlimited run needs at most N - 1 returns exactly the unlimited result, with the same calls of functions; any other fails with the budget error.",
  "all expressions, activations, budgets, unknown patterns and recursion limits", "nested loops share one counter; counting all executions of all programs",
  ["eval/eval/comprehension_step.cc:ComprehensionDirectStep::Evaluate1,Evaluate2", "eval/eval/evaluator_core.h:ExecutionFrameBase::IncrementIterations"])
p("C54", "recursive evaluation always finishes cleanly",
  "C23 for recursively planned programs: evaluating one always ends, with a value that is a valid CEL value (int in int64, uint in uint64, ...) or with an error status; it never reads a variable slot that holds nothing, is never stopped for nesting too deep, and has no undefined behaviour, provided the host's functions and variables give valid values.",
  "all expressions, options, activations, unknown patterns, recursion limits and contents of moved-from values", "all programs and all values flowing through them",
  ["eval/eval/comprehension_step.cc:ComprehensionDirectStep", "eval/eval/ident_step.cc:SlotStep", "eval/eval/lazy_init_step.cc:DirectLazyInitStep,BindStep", "eval/eval/comprehension_slots.h"])
p("C55", "signatures of types and overloads read back",
  "The text signature of a type or of a function overload, parsed, gives that type or overload again (message types as abstract types of that name, types left out as dyn), also with white space added anywhere outside of escapes. Names are not empty, have no white space and are not the signature words of other types; they may contain brackets, commas, dots, tildes and backslashes. Parsing any text whatsoever ends with a result or an error.",
  "all types of any depth, names and texts", "unbounded nesting and arbitrary names",
  ["common/signature.cc:MakeTypeSpecSignature,MakeOverloadSignature,ParseTypeSpec,ParseFunctionSignature"])
p("C56", "different overloads have different signatures",
  "Two overloads with the same generated signature have the same function name, call style and argument types, so the generated overload ids do not collide. (Refuted for a message or abstract type named like a built-in type.)",
  "all pairs of overloads", "all pairs of overloads of any size",
  ["common/signature.cc:MakeOverloadSignature", "common/decl.cc:OverloadDecl"])
p("C57", "a parsed signature can be written again",
  "Whatever type or overload a text parses to has a signature, and that parses to the same type or overload. (Refuted for names with escaped white space: the white space is written without an escape and lost.)",
  "all texts", "arbitrary texts",
  ["common/signature.cc:ParseTypeSpec,ParseFunctionSignature,MakeTypeSpecSignature,StripUnescapedWhitespace,AppendEscaped"])
p("C58", "threads may share an activation",
  "Any number of threads may evaluate with one activation whose variables are bound to values and providers, in any interleaving: no two accesses race; providers are called one at a time, and one that has given a value is not called again until the variable is bound anew; every lookup gives the value bound, or the value the provider gave to the first asker, or else what the provider has just said to this very lookup; all threads see the same value; and some lookup can always go on. (Refuted when a provider looks up a provided variable of the same activation: it waits for ever for the lock it holds itself.)",
  "all schedules of any number of threads, all bindings, all behaviours of providers", "all interleavings",
  ["runtime/activation.cc:Activation::FindVariable,ProvideValue,InsertOrAssignValue,InsertOrAssignValueProvider"])
p("C59", "moving an activation keeps its contents",
  "An activation constructed or assigned from another by moving has the other's variables, functions, unknown and missing patterns, and everything else that affects evaluation; the other is left empty. (Refuted for the attribute matcher, which stays behind.)",
  "all activations", "all contents",
  ["runtime/activation.h:swap(Activation&, Activation&)", "runtime/activation.cc:Activation::Activation(Activation&&),operator="])
p("C60", "provided values live as long as the evaluation that gets them",
  "A variable lookup made with an arena gives a value that lives on that arena or on none, if the providers keep to the arena they are given. (Refuted when evaluations with different arenas share an activation: the value is memoised on the arena of the first and given to all later ones, even when that arena is gone.)",
  "all schedules, arenas and behaviours of providers", "all histories of evaluations",
  ["runtime/activation.cc:Activation::ProvideValue"])
p("C61", "constant folding changes nothing but the work done",
  "A program planned with constant folding gives, for the same variables, the value or error status that the program planned without it gives, after as many loop bodies; it calls the same functions on the same arguments in the same order, leaving out some; in particular functions that depend on the evaluation context or are found in the activation are never called at plan time. Folding accepts exactly the expressions that planning accepts, and refuses the others with the same status. An expression of literals, selections and calls whose functions depend on nothing but their arguments becomes a single constant if its value is known.",
  "all expressions, registries, variables and options, whatever contextual and lazy functions do at plan time", "all expressions and function behaviours",
  ["eval/compiler/constant_folding.cc:ConstantFoldingExtension::OnPreVisit,OnPostVisit,IsConstExpr", "eval/compiler/flat_expr_builder.cc:FlatExprVisitor::PostVisitExpr"])
p("C62", "a compiled policy gives its first match",
  "A policy is accepted exactly if every rule has matches and none follows a match that is unconditional and always has an output; composing an accepted policy never fails. The compiled expression then evaluates to the output of the first match that applies: the matches of a rule are tried in order, the first true condition decides by its output or by its nested rule, later matches are not looked at, except after an unconditional nested rule in which nothing applies; variables have the value they have where they are declared, and hide those of the same name of outer rules. Errors of conditions and outputs are the result. If the policy may end without an output the result is an optional, and only then.",
  "all policies of any nesting, variables, activations and function behaviours", "all policies and inputs",
  ["policy/compiler.cc:FirstMatchComposer::Compose,ComposeRule,ComposeRuleVariables,CheckMatchStructure,IsExhaustive"])
p("C63", "unnesting a policy keeps its value",
  "Compiling a policy with a height limit gives an expression with the value of the one compiled without, in every environment, and as optional; it is refused only when a comprehension would have to be taken apart.",
  "all policies, height limits and environments", "all policies and limits",
  ["policy/compiler.cc:Unnester::Slice,UnnestRewriter::PostVisitRewrite,Cleanup"])
p("C64", "the height limit of policies bounds the height of the result",
  "The expression compiled with a height limit exceeds it by no more than a small, fixed margin, as documented, or the policy is refused. (Refuted: values of policy variables are not taken apart, and cutting where the height is a multiple of the limit can miss every node of a long path.)",
  "all policies and height limits", "heights are unbounded",
  ["policy/compiler.h:CompilePolicyOptions::unnesting_height_limit", "policy/compiler.cc:Unnester::Slice"])
p("C65", "expressions of a policy can be replaced by equivalent ones",
  "Replacing conditions, outputs and variables of a policy by expressions of the same meaning leaves the value of the compiled policy as it was. (Refuted for the literal true: under it, but not under another condition that is always true, the search goes on when the nested rule has no match.)",
  "all policies and replacements", "all pairs of equivalent expressions",
  ["policy/compiler.cc:IsTriviallyTrueCondition,FirstMatchComposer::ComposeRule"])

p("C66", "searching in strings counts characters",
  "indexOf gives the index, counted in characters, of the first place the given string is found at or after the given position (0 if none is given), lastIndexOf that of the last place at or before it (the end if none is given), and -1 if there is no such place; a position below zero or past the size is an error. contains, startsWith and endsWith tell whether the string is found anywhere, at the start or at the end. The answers do not depend on how the strings are stored.",
  "all well-formed strings, stored contiguously or as Cords cut anywhere, all positions", "all strings, needles and chunk boundaries",
  ["common/values/string_value.cc:StringValue::IndexOf,LastIndexOf,Contains,StartsWith,EndsWith", "extensions/strings.cc:IndexOf2,IndexOf3,LastIndexOf2,LastIndexOf3"])
p("C67", "substring and charAt count characters",
  "charAt gives the character at a position, and the empty string at the end; substring(start) the characters from start on; substring(start, end) those from start up to, not including, end; positions from 0 to the size are accepted, others are errors. The answers do not depend on how the string is stored. (Refuted: a nonempty substring(start, end) that reaches the end of the string is refused; substring(size()) of a string stored as a Cord is the whole string.)",
  "all well-formed strings, stored contiguously or as Cords cut anywhere, all positions", "all strings, positions and chunk boundaries",
  ["common/values/string_value.cc:StringValue::Substring,CharAt,SubstringImpl"])
p("C68", "split and join are inverse",
  "split cuts a string at the occurrences of the separator, leftmost first, into at most as many pieces as the limit allows, the last piece being the rest; an empty separator cuts it into characters; a negative limit is none and a limit of 0 gives no pieces. What a split is is thereby determined. join puts the separator between the strings of a list and refuses lists with other elements. Joining the pieces of a split with its separator gives the original.",
  "all well-formed strings, separators and limits, stored contiguously or as Cords cut anywhere", "all strings, separators, limits",
  ["common/values/string_value.cc:StringValue::Split,Join", "common/internal/byte_string.cc:ByteString::Find,Substring", "extensions/strings.cc:Split2,Split3,Join1,Join2"])
p("C69", "replace replaces the occurrences from the left",
  "replace gives the string in which the occurrences of a string, leftmost first and not overlapping, at most as many as the limit allows, are replaced by another, the rest being unchanged; an empty string is found before each character and at the end; a negative limit is none.",
  "all well-formed strings and limits, stored contiguously or as Cords cut anywhere", "all strings, needles, limits",
  ["common/values/string_value.cc:StringValue::Replace", "extensions/strings.cc:Replace1,Replace2"])
p("C70", "case, trim, reverse and quote",
  "lowerAscii and upperAscii change the case of ASCII letters and nothing else; trim removes the Unicode white space at both ends and nothing else; reverse gives the characters in reverse order; the result of strings.quote, read as a string literal, is the original string. The answers do not depend on how the string is stored.",
  "all well-formed strings, stored contiguously or as Cords cut anywhere", "all strings and chunk boundaries",
  ["common/values/string_value.cc:StringValue::LowerAscii,UpperAscii,Trim,Reverse,Quote", "internal/strings.cc:ParseStringLiteral"])

p("C71", "an expression the type checker accepts has the type it is given",
  "If the checker reports no error, the deduced type of the expression, with its type variables resolved, is a type the expression has by the typing rules of CEL, for every choice of the variables left over; with an expected type, it is that type. (Refuted in general: the condition of a loop need not be boolean and its step need not have the accumulator's type; a field of a variable known to be an int is accepted. Conversely well-typed expressions are refused: a loop condition that reads the loop's variable, a range whose type is a type variable, an operand whose first matching overload is not the right one.)",
  "all expressions, declarations and expected types", "all expressions, declarations and orders in which type variables get bound",
  ["checker/internal/type_checker_impl.cc:ResolveVisitor", "checker/internal/type_inference_context.cc:TypeInferenceContext"])
p("C72", "type checking ends and types every part",
  "Checking any expression against any declarations ends, whatever type variables get bound to each other on the way, and records a type for every part of the expression.",
  "all expressions, declarations and expected types", "termination for all expressions and declarations",
  ["checker/internal/type_checker_impl.cc:TypeCheckerImpl::CheckImpl,ResolveVisitor", "checker/internal/type_inference_context.cc:TypeInferenceContext::IsAssignable,FullySubstitute"])
p("C73", "what is not declared is reported",
  "An expression accepted without an error uses only variables that are declared or bound by a macro, calls only functions declared for that call style and number of arguments, and has only literals of supported kinds, whether or not its types are dynamic.",
  "all expressions and declarations", "all nestings of scopes and expressions",
  ["checker/internal/type_checker_impl.cc:ResolveVisitor::ResolveSimpleIdentifier,ResolveFunctionCallShape,PostVisitConst"])

p("C74", "well-typed expressions do not meet type errors",
  "When every variable holds a value of its declared type and every function returns a value of its declared result type, evaluating an expression of type t gives a value of type t, or an error that is not about the type of an operand, or runs out of the iteration budget; so does a program made from an expression that the type checker accepted. (Refuted in three places: values of type dyn are assignable to anything; the types of map keys are not checked, so [1] in {} and {[1]: 1} are accepted; indexing through an optional gives an optional that holds an error.)",
  "all well-typed expressions, all values of the variables, all functions that keep their declarations", "all expressions, values and functions",
  ["eval/compiler/flat_expr_builder.cc:FlatExprVisitor", "eval/eval/evaluator_core.cc:ExecutionFrame::Evaluate", "eval/eval/container_access_step.cc:PerformLookup", "checker/internal/type_checker_impl.cc:ResolveVisitor"])

p("C75", "shared objects are destroyed once, when the last reference goes",
  "When threads copy, drop, weaken and strengthen references to one object under any schedule, each using only references that are owned, and fewer than 2^31 references exist at any time: the object is never used or destroyed while destroyed and the counters never touched after they are freed; the object lives while a strong reference is owned and the counters while any reference is; strengthening succeeds only while a strong reference is owned and fails only when none is, and then for ever; an owner told it is the only one is; and when the last reference is gone the object has been destroyed and the counters freed, exactly once. (The limit is needed: with 2^32 more copies the count wraps round and the object is destroyed while in use.)",
  "all numbers of threads, all schedules, all programs that use owned references", "all schedules of all threads",
  ["common/internal/reference_count.h:StrongRef,StrongUnref,StrengthenRef,WeakRef,WeakUnref,IsUniqueRef,IsExpiredRef"])

p("C76", "printed expressions parse to themselves",
  "Unparsing an expression gives a text, and parsing that text gives the expression again, up to how chains of && and of || are grouped; what was read back prints and reads back exactly. (Refuted: the parentheses that a sign or a ! needs under a selection, index, method call or macro are dropped, and so are those of two such operators in a row, of a sign before a number, and of a binary operation in has(); whole doubles print as ints; back-quoted fields named true, false or null lose the quotes; functions named _in_ print as the operator, without their receiver; loops over two variables print as loops over one.)",
  "all expressions made of literals, identifiers, operators, calls, lists, maps, optional entries and the standard macros; all parser options", "all expressions, all nestings of operators, all string contents",
  ["tools/cel_unparser.cc:Unparse", "parser/parser.cc:Parse", "parser/internal/Cel.g4"])

p("C77", "the parser accepts exactly the grammar",
  "A text parses exactly when its tokens are derivable in the grammar of the language, and then to the expression derived: every level of operators binds tighter than the one before, binary operators of a level group to the left, a conditional after the colon needs no parentheses, signs and negations cancel in pairs and a single sign before a number belongs to it, lists and maps may end with a comma, optional marks and back quotes are accepted exactly when enabled, and every receiver, call and macro gets exactly the arguments written. The grammar is unambiguous.",
  "all texts, all parser options", "all token sequences and all derivations",
  ["parser/internal/Cel.g4", "parser/parser.cc:ParserVisitor"])

p("C78", "strings contain their bytes in every representation",
  "A program that creates, copies, moves, assigns, swaps, cuts and concatenates strings, converts them to and from Cords and destroys them and the arenas they use reads from every string the bytes it should, and meets no undefined behaviour, whether the bytes are inline, counted, in an arena, external or in a Cord; as long as it does not use strings it moved from, keeps positions in range and destroys an arena only when no string that may use it is left. (Refuted for debug builds, where copying a short substring of a long string into an arena and swapping with a string moved from stop at a check.)",
  "all programs over any number of strings, Cords and arenas, all sizes", "all histories of operations",
  ["common/internal/byte_string.h:ByteString", "common/internal/byte_string.cc:ByteString"])

p("C79", "the memory of strings is freed once, when the last user goes",
  "The memory a string shares with its copies, substrings and Cords is freed at most once, not while one of them is left, and has been freed when none is; assignment keeps the allocator a string was created with. (The last part is refuted: an assigned string uses the arena of the other one.)",
  "all programs over any number of strings, Cords and arenas", "all histories of operations",
  ["common/internal/byte_string.cc:ByteString::CopyFrom,MoveFrom,Swap,Construct,Destroy,ToCord,RemovePrefix,RemoveSuffix", "common/internal/reference_count.h"])

p("C80", "format() prints what its format string stands for",
  "format() gives a text exactly when its format string stands for one, and then that text: characters other than % stand for themselves, %% for %, and each clause, with its precision where it has one, for the text of the next argument (integers in the clause's base, doubles with the precision given or 6, bytes as two hexadecimal digits each, lists in brackets, maps in braces in the order of the texts of their keys, durations in seconds with the shortest exact fraction of 3, 6 or 9 digits); arguments left over are ignored. Every other format string or argument gives an invalid-argument error, never undefined behaviour.",
  "all format strings, all lists of arguments of any depth, all values of the precision option", "all byte strings as format, all values",
  ["extensions/formatting.cc:Format,ParseAndFormatClause,ParsePrecision,FormatString,FormatList,FormatMap,FormatDuration"])

p("C81", "integer clauses are exact",
  "%b, %o, %d, %x and %X print every signed and unsigned 64-bit integer, the smallest one included, as its numeral in base 2, 8, 10, 16: no two integers print alike.",
  "all 64-bit integers, all integer clauses", "2^64 values in five bases",
  ["extensions/formatting.cc:FormatBinary,FormatHex,FormatOctal,FormatDecimal"])

p("C82", "formatting does not depend on the order of map entries",
  "The text format() gives does not depend on the order in which the maps among the arguments, at any depth, iterate over their entries. (Refuted: of keys with the same text, such as 1 and \"1\", only the entry met first is printed.)",
  "all format strings, all arguments, all orders of their entries", "all permutations of entries at every depth",
  ["extensions/formatting.cc:FormatMap"])

p("C83", "format() makes well-formed strings",
  "When the format string and every string among the arguments are well-formed UTF-8, so is the result. (Refuted: %s copies the bytes of a bytes value.)",
  "all format strings, all arguments", "all format strings, cut at every position by clauses",
  ["extensions/formatting.cc:FormatString,Format"])

p("C84", "traversing a syntax tree visits every expression once, in order",
  "Traversing any syntax tree ends, and makes exactly the callbacks of a visit by recursion, in the same order: before and after every expression, around every receiver, argument and part of a comprehension, each expression before (PreVisit) and after (PostVisit) those below it, and once. Unset children are visited as empty expressions. Stepping a traversal by hand makes the same callbacks, and it is done exactly when all are made.",
  "all syntax trees, set or unset children at every place, both treatments of comprehensions, all numbers of steps", "all trees, all depths, all numbers of steps",
  ["common/ast_traverse.cc:AstTraverse,AstTraversal::Step,PushDependencies,PreVisit,PostVisit", "common/ast_traverse.h:AstTraversal"])

p("C85", "the navigable tree mirrors the syntax tree",
  "Building the navigable form of a syntax tree succeeds on every tree; its nodes are the expressions of the tree in preorder, each with its parent, its place among its siblings, its children in order, the number of expressions below it and its height; the descendants of a node in preorder are the node and the descendants of its children in order; an id is looked up to the first node in preorder that has it, and the ids are reported unique exactly when they are.",
  "all syntax trees, all nodes, all ids, repeated ids included", "all trees",
  ["common/navigable_ast.cc:NavigableAst::Build", "common/ast/navigable_ast_internal.h:NavigableAstMetadata,NavigableAstNodeBase::DescendantsPreorder", "common/navigable_ast.h:NavigableAst::FindId,IdsAreUnique"])

p("C86", "the relations and the postorder of the navigable tree",
  "The descendants of a node in postorder are the descendants of its children in order followed by the node, and what a node is recorded to be to its parent (operand, receiver, argument, key, value, ...) is what it is. (Refuted: the postorder range is wrong for every node of every tree except the root; the children of a map with an entry that lacks its key or value are mislabelled.)",
  "all syntax trees, all nodes", "all trees, all nodes",
  ["common/ast/navigable_ast_internal.h:NavigableAstNodeBase::DescendantsPostorder", "common/navigable_ast.cc:GetChildKind"])

p("C87", "rewriting a tree in place does what the recursion does",
  "Rewriting a syntax tree in place, with callbacks that keep a state of their own and replace any expression by any other before or after it is visited, makes exactly the callbacks of a rewrite by recursion (what is put in place before the visit is visited, what is put in place after it is not), with the same expressions and the same path from the root, leaves the same tree and gives the same answer; one ends exactly when the other does, and no pointer that is followed dangles. It ends whenever the callback before the visit never makes an expression larger.",
  "all syntax trees, all rewriters, both treatments of comprehensions", "all trees, all rewriters with any state",
  ["common/ast_rewrite.cc:AstRewrite", "common/ast_rewrite.h:AstRewriter"])

p("C88", "rewriting from the leaves up, and rewriting nothing",
  "With only a stateless callback after the visit, every expression is rewritten exactly once, from the leaves up, and the answer tells whether some rewrite was reported. If the answer is no and the callbacks tell the truth, the tree is unchanged. A rewriter that rewrites nothing gets exactly the callbacks of a traversal. (Refuted for trees with unset list elements or pieces of a comprehension: they become set.)",
  "all syntax trees, all rewriters", "all trees, all rewriters",
  ["common/ast_rewrite.cc:AstRewrite,PushListDeps,PushComprehensionDeps", "common/expr.h:ListExprElement::mutable_expr"])

p("C89", "an expression survives the trip through a message",
  "Converting an expression to a protobuf message succeeds exactly when every duration and timestamp constant in it is in the range of the message types, and converting the message back gives the same expression, ids, unset children and optional marks included. Whatever expression was read from a message survives any further trips, and a message in its usual form is what the expression read from it is written to. (Refuted for structs without a name: one with fields cannot be read again, one without comes back as a map.)",
  "all expressions, all messages", "all trees, all ids, all constants",
  ["common/ast/expr_proto.cc:ExprToProto,ExprFromProto", "common/ast/constant_proto.cc:ConstantToProto,ConstantFromProto", "internal/proto_time_encoding.cc:EncodeDuration,DecodeDuration,EncodeTime,DecodeTime"])

p("C90", "a type survives the trip through a message and copying",
  "A type converted to a message and back equals the type it was; a message is read exactly when its enums have known values, and the type read is written to the same message; equality of types is an equivalence relation; a copy of a type equals the type and is written to the same message. (Refuted: the type of an unset type comes back as the type without argument, which is not equal to it; a copy of the type without argument is not equal to it.)",
  "all types, all messages", "all types of all depths",
  ["common/ast_proto.cc:ConvertProtoTypeToNative,TypeToProto", "common/ast/metadata.cc:CopyImpl", "common/ast/metadata.h:TypeSpec::operator=="])

p("C91", "equality of expressions",
  "Equality of expressions is symmetric and transitive, and reflexive on expressions without NaN; expressions that are equal are the same up to the sign of zero and to unset children being empty expressions. (Refuted: the second variable of a comprehension is not compared.)",
  "all pairs and triples of expressions", "all trees",
  ["common/expr.h:operator==(const Expr&, const Expr&),operator==(const ComprehensionExpr&, const ComprehensionExpr&)", "common/constant.h:operator=="])

p("C92", "a whole syntax tree survives the trip through a parsed or checked message",
  "Converting a syntax tree to a parsed or a checked message and back gives a tree with the same expression, the same source information, macro calls and extensions included, and, when checked, the same references, version and equal types. The conversion succeeds exactly when the times in it are in range and, for a checked message, the tree is checked; whatever is not converted is refused with InvalidArgument.",
  "all syntax trees", "all trees with all their side tables",
  ["common/ast_proto.cc:AstToParsedExpr,AstToCheckedExpr,CreateAstFromParsedExpr,CreateAstFromCheckedExpr", "common/ast/source_info_proto.cc:SourceInfoToProto"])

p("C93", "a comprehension that passes the memory check grows its accumulator linearly",
  "With the check for memory exhaustion switched on, a comprehension over a list that is accepted makes its accumulator larger by at most a constant for each element, whatever the number of elements and the initial accumulator. (Refuted: an accepted loop step doubles the accumulator in each iteration by binding it to a variable that is used twice, by mapping a list to it, or by passing it through a function such as string(); proved for steps that use the accumulator only through +, dyn, conditionals, lists, map values, selection, indexing, functions with small results and results of inner comprehensions.)",
  "all loop steps, all lists, all initial accumulators", "all expressions, lists of any length, values of any size",
  ["eval/compiler/comprehension_vulnerability_check.cc:ComprehensionAccumulationReferences,ComprehensionHasMemoryExhaustionVulnerability", "eval/public/cel_options.h:enable_comprehension_vulnerability_check"])

p("C94", "the memory check refuses no comprehension that uses its accumulator once",
  "The check for memory exhaustion looks at every comprehension of an expression, refuses none in whose loop step the accumulator occurs at most once, and refuses nothing the standard macros make of operands it accepts. (Refuted for inner comprehensions that reuse the accumulator's name for their second variable: they are refused although the accumulator does not occur.)",
  "all expressions", "all expressions, all macro operands",
  ["eval/compiler/comprehension_vulnerability_check.cc:ComprehensionAccumulationReferences,ComprehensionVulnerabilityCheck::OnPreVisit", "eval/compiler/flat_expr_builder.cc:FlatExprVisitor::PreVisitExpr", "parser/macro.cc"])

p("C95", "the overloads of a function can be told apart",
  "Whatever overloads are offered, in whatever order, with renames and releases in between, no two overloads a function declaration holds have the same id or collide, that is, accept each other's parameters pairwise in one direction or the other; an overload is refused as a collision only if some call could go to it and to one already there; and a call with given argument types can go to at most one overload. (Refuted for wrapper types, which all accept null, for types with more than one parameter of which some are dyn, for type parameters and for enums against int; proved for the other types.)",
  "all histories of a declaration, all overloads, all argument types", "all histories, all types of all depths",
  ["common/decl.cc:TypeIsAssignable,SignaturesOverlap,AddOverloadInternal", "common/decl.h:FunctionDecl::AddOverload,MakeFunctionDecl"])

p("C96", "adding and finding overloads",
  "An overload is added exactly if it has a signature, its id (by default its signature) is new and it collides with none; it comes last, and an overload that is refused changes nothing. Overloads given at once are accepted or refused whatever their order. Every overload is found under its id and under its signature, and no lookup reads beyond the overloads. (Refuted for signatures: another overload may have been given that text as its id; it is found instead, and takes the place of an overload without id.)",
  "all histories of a declaration, all lists of overloads, all texts looked up", "all histories and orders",
  ["common/decl.cc:AddOverloadInternal,FunctionDecl::FindOverloadById", "common/decl.h:MakeFunctionDecl,FunctionDecl::release_overloads,FunctionDecl::set_name"])

p("C97", "assignability of declared types",
  "Assignability of declared types is reflexive and transitive, overlap of signatures is symmetric, and whatever a declaration lets a parameter take the type checker lets it take. The type parameters reported for an overload are those that occur in its result and arguments. (Refuted for type parameters that occur only in type(...).)",
  "all types, all pairs of overloads", "all types of all depths",
  ["common/decl.cc:TypeIsAssignable,SignaturesOverlap,OverloadDecl::GetTypeParams,CollectTypeParams", "checker/internal/type_inference_context.cc:TypeInferenceContext::IsAssignable"])

p("C98", "a type survives the trip through its specification and its text",
  "A type has a specification exactly if no part of it is the unknown type or a struct that is not a message; converting the specification, or parsing its text, gives the type back, provided the descriptor pool has its messages and enums. (Refuted for abstract types named like a message of the pool; a type of types without parameter comes back as type(dyn).)",
  "all types, all descriptor pools", "all types of all depths",
  ["common/type_spec_resolver.cc:ConvertTypeToTypeSpec,ConvertTypeSpecToType", "common/signature.cc:MakeTypeSignature,ParseType", "common/type.cc:Type::Message,Type::Enum"])

p("C99", "c[?k] is c[k] as an optional",
  "c[?k] is an optional of c[k] whenever c[k] has a value and optional.none() whenever c[k] fails for want of the key or because the index is out of range, also when c is itself inside an optional, and optional.none()[?k] is optional.none(). (Refuted: a list takes an index of type uint or double in l[k] but not in l[?k], and m[?null] is optional.none() although m[null] is an error; proved for maps with keys of the lookup kinds and for lists with an int.)",
  "all evaluators with optional types enabled, all containers, all keys", "all maps, lists, keys and registration histories",
  ["runtime/optional_types.cc:MapOptIndexOptionalValue,ListOptIndexOptionalInt,OptionalOptIndexOptionalValue", "eval/eval/container_access_step.cc:LookupInMap,LookupInList,PerformLookup"])

p("C100", "m.?f has a value exactly when has(m.f)",
  "For a map m, m.?f holds m.f if has(m.f) and is optional.none() otherwise; it equals m[?\"f\"] and what selecting f from optional.of(m) gives; selecting from optional.none() gives optional.none(). hasValue() and value() read back what optional.of was given, and value() of optional.none() is an error.",
  "all maps, all fields, all values", "all maps, fields and configurations",
  ["runtime/optional_types.cc:SelectOptionalFieldMap,SelectOptionalField,OptionalGetValue,OptionalHasValue", "eval/eval/select_step.cc:SelectStep"])

p("C101", "optional.ofNonZeroValue is none exactly on defaults",
  "optional.ofNonZeroValue(v) is optional.none() exactly if v equals the default of its kind (null, false, 0, 0u, 0.0, the empty string, bytes, list and map, the zero duration and the epoch) and holds v otherwise; optional.ofNonZeroValue(v).orValue(d) with that default d equals v if v contains no NaN.",
  "all values", "all values of all depths",
  ["runtime/optional_types.cc:OptionalOfNonZeroValue", "common/value.cc:Value::IsZeroValue", "eval/eval/optional_or_step.cc"])

p("C102", "lists and optionals",
  "optional.unwrap(l) and l.unwrapOpt() are what the optionals of l hold, in order, and an error if some element is no optional; they undo optional.of, distribute over concatenation and agree with the list literal whose elements are all optional; l.first() is l[?0] and l.last() is l[?size(l)-1]. No function of optional types puts an error inside an optional.",
  "all lists, all calls of the functions", "all lists of any length, all values",
  ["runtime/optional_types.cc:ListUnwrapOpt,ListFirst,ListLast,RegisterOptionalTypeFunctions", "eval/eval/create_list_step.cc"])

p("C103", "enabling optional types",
  "Optional types can be enabled exactly if qualified type identifiers and heterogeneous equality are on and no registered function could be confused with one of theirs; enabling them twice fails and changes nothing. A failed attempt registers nothing. (The last is refuted: the functions registered before the one that clashes stay.)",
  "all registration histories, all options", "all histories of registrations",
  ["runtime/optional_types.cc:EnableOptionalTypes,RegisterOptionalTypeFunctions", "runtime/function_registry.cc:FunctionRegistry::Register"])

p("C104", "texts of numbers, booleans and bytes are read back",
  "string(x) of an int, uint or bool is its shortest numeral, or true or false, and int(), uint() and bool() give x back. int(s) accepts exactly an optional sign and digits between white space that fit 64 bits, uint(s) the same without a minus sign, bool(s) exactly the ten documented texts; everything else is an error. string(b) is b for well-formed UTF-8 and an error otherwise. Converting a converted value again does not change it. (The last is refuted for timestamps in debug builds with the default options, where the second conversion aborts.)",
  "all values, all texts, all options", "all 64-bit numbers, all texts of any length",
  ["runtime/standard/type_conversion_functions.cc:RegisterIntConversionFunctions,RegisterUintConversionFunctions,RegisterBoolConversionFunctions,RegisterStringConversionFunctions,RegisterBytesConversionFunctions"])

p("C105", "durations and their texts",
  "string(d) is the seconds of d with the shortest exact fraction of three, six or nine digits, and duration() reads it back. duration(s) is the sum of the terms of s (decimal numbers with the units h, m, s, ms, us, ns) if that is in range, and an error otherwise; it accepts nothing else. getHours, getMinutes, getSeconds and getMilliseconds of a duration round towards zero and together give the duration to the millisecond. (Refuted: a term whose whole part does not fit 64 bits is refused although the duration is in range.)",
  "all durations of whole nanoseconds, all texts", "all durations, all texts of any length",
  ["runtime/standard/type_conversion_functions.cc:CreateDurationFromString", "internal/time.cc:EncodeDurationToJson,ValidateDuration,FormatNanos", "runtime/standard/time_functions.cc:RegisterDurationFunctions"])

p("C106", "timestamps and their texts",
  "string(t) is the date and time of t in UTC as in RFC 3339 with the shortest exact fraction, and timestamp() reads it back. timestamp(s) of a text of RFC 3339 is the instant it names, timestamp(i) is i seconds after 1970 and int(t) the last whole second not after t; instants outside the years 1 to 9999 are errors. (Refuted for the default options, which accept years above 9999, infinite-future and, in debug builds, abort on the next conversion; also fields of one digit and texts that go on after a zero byte are accepted.)",
  "all timestamps, all texts, all options", "all instants, all texts of any length",
  ["runtime/standard/type_conversion_functions.cc:RegisterTimeConversionFunctions", "internal/time.cc:EncodeTimestampToJson,ValidateTimestamp", "runtime/runtime_options.h:enable_timestamp_duration_overflow_errors"])

p("C107", "the fields of a timestamp are those of the calendar",
  "getFullYear, getMonth, getDate, getDayOfMonth, getHours, getMinutes, getSeconds, getMilliseconds, getDayOfYear and getDayOfWeek are the fields of the Gregorian calendar, counted day by day from 1970-01-01, at the time shifted by the zone: UTC, a zone of the database or hours and minutes. Any other zone is an error. (The last is refuted: other texts with colons are read as durations, 1:30:20 as 31 hours and 20 minutes.)",
  "all timestamps, all zones, all fields", "all instants and zones",
  ["runtime/standard/time_functions.cc:FindTimeBreakdown,GetTimeBreakdownPart,GetFullYear,GetMonth,GetDayOfYear,GetDayOfMonth,GetDate,GetDayOfWeek,GetHours,GetMinutes,GetSeconds,GetMilliseconds"])

p("C108", "durations and timestamps survive their messages",
  "Encoding a duration or a timestamp in range as a message and decoding it gives it back; the message has nanos below a second, of the sign of the seconds for durations and not negative for timestamps, and is the only such message; a value out of range is an error.",
  "all durations and timestamps of whole nanoseconds, all messages", "all values and all messages",
  ["internal/proto_time_encoding.cc:EncodeDuration,EncodeTime,DecodeDuration,DecodeTime"])

p("C109", "values and JSON",
  "Exactly the values with JSON (no types, optionals, errors or unknowns, times in range, names as keys) convert to JSON, each to its own: numbers as numbers, integers of magnitude 2^53 or more as decimal texts, bytes in base 64, durations and timestamps as in proto3; any other value is an error. JSON read as a value converts back to the same JSON with nulls for what was unset. A value without NaN, bytes, times or integers from 2^53 is read back as an equal value. (Refuted for the others, which come back as strings; an infinite duration fails a debug check instead of an error.)",
  "all values, all JSON messages", "values and messages of any depth and size",
  ["common/values/value_builder.cc:ListValueToJsonArray,MapValueToJsonObject,ValueToJsonString", "common/values/parsed_json_value.cc:ParsedJsonValue", "internal/well_known_types.cc:ValueReflection::SetNumberValue,SetStringValueFromBytes,SetStringValueFromDuration,SetStringValueFromTimestamp", "common/values/int_value.cc:ConvertToJson"])

p("C110", "equality of JSON",
  "Two JSON messages are equal exactly if they are the same JSON, where unset is null, numbers are compared by value and the fields of an object come in any order; that is the same as CEL equality of the values they are read as. The relation is symmetric and transitive, and reflexive without NaN.",
  "all JSON messages", "messages of any depth and size",
  ["internal/json.cc:JsonEquals", "common/values/parsed_json_list_value.cc:Equal", "common/values/parsed_json_map_value.cc:Equal"])

p("C111", "base64.encode and base64.decode",
  "base64.encode writes the bits of the bytes six at a time with padding, and base64.decode reads them back. base64.decode accepts exactly the texts of the alphabet with padding complete or left out, ignoring white space; anything else is an error. (That a text is the only one for its bytes is refuted: bits after the last byte are ignored.)",
  "all byte strings, all texts", "bytes and texts of any length",
  ["extensions/encoders.cc:Base64Decode,Base64Encode"])

p("C112", "export of values as JSON by the legacy API",
  "ExportAsProtoValue writes a value as JSON with integers as numbers, exact up to 2^53 and never more than 1024 off, the keys of maps as texts, and agrees with the conversion of C109 where integers are below 2^53 and keys are names. (Refuted: larger integers are not told apart, and lists or maps under keys with the same text, as in {1: [true], '1': [false]}, are merged into one field.)",
  "all values", "values of any depth and size",
  ["eval/public/value_export_util.cc:ExportAsProtoValue,KeyAsString"])

p("C113", "the order of legacy values in sets",
  "CelValueLessThan, CelValueEqual and CelValueGreaterThan order values by kind, then by value: lists by size and then element by element, maps by size and then entry by entry in the order of the keys. Exactly one of the three holds of any two values, and without NaN and with distinct errors the order is a strict weak order, as std::set and std::map need. (Refuted otherwise: NaN is in the place of every double, and a third error can lie between two that say the same.)",
  "all legacy values", "values of any depth and size, any three of them",
  ["eval/public/set_util.cc:CelValueCompare,CelValueLessThan,CelValueEqual,CelValueGreaterThan"])

p("C114", "limits checked by validators",
  "The AST depth validator accepts exactly the expressions whose tree is no taller than the limit. The comprehension nesting validator accepts exactly those in which no way down the tree passes more than the limit of comprehensions whose range is not the literal []; its report names such an expression and the number. A Validator is valid when all its validations are and reports what they report in turn; applying it to a checker result keeps earlier issues and drops the expression if it is not valid.",
  "all expressions, limits and lists of validations", "trees of any depth and shape",
  ["validator/validator.cc:Validate,UpdateValidationResult", "validator/ast_depth_validator.cc:AstDepthValidator", "validator/comprehension_nesting_validator.cc:ComprehensionNestingLimitValidator"])

p("C115", "literals of timestamps and durations are validated as they are converted",
  "The timestamp and duration literal validators report the literal arguments of timestamp() and duration() whose conversion at run time (with range checks enabled) is an error, and no others. An expression they accept has no such literal that fails at run time, whatever the options.",
  "all expressions, all literals", "expressions of any size, literals of any length",
  ["validator/timestamp_literal_validator.cc:ValidateTimestamps,ValidateDurations", "runtime/standard/type_conversion_functions.cc"])

p("C116", "homogeneous literals",
  "The homogeneous literal validator accepts exactly the expressions in which, away from calls of the exempt functions, the elements of every list literal have types alike, and so have the keys and the values of every map literal: equal types, with wrappers taken for what they wrap and optional elements for what is inside. Being alike is an equivalence, so the order of the elements does not matter. (Refuted with error types, which are like all others: [error, 1, 's'] is accepted; an optional element of type optional_type without parameter is undefined.)",
  "all expressions, all type maps, all lists of exempt functions", "literals of any length at any depth, types of any depth",
  ["validator/homogeneous_literal_validator.cc:HomogeneousLiteralValidator,TypeEquiv,InExemptFunction"])

p("C117", "literal patterns are validated",
  "The regex pattern validator reports the literal strings in the place of the pattern of calls of the configured functions (counting the receiver, by the first configuration of the function) that are not regular expressions, and no others.",
  "all expressions, all configurations", "expressions of any size and depth",
  ["validator/regex_validator.cc:RegexPatternValidator,CheckPattern"])

p("C118", "fields visible through masks",
  "Given a set of proto type masks, a field of a message type is visible exactly if no mask restricts the type or one of the paths of the masks goes through the field. The set is accepted exactly if its types exist, every name of every path can be selected in turn, and no type is both said to have no visible fields and given one. The order of masks and paths does not matter.",
  "all descriptor pools, all sets of masks, all types and fields", "pools and masks of any size, paths of any length, recursive message types",
  ["checker/internal/proto_type_mask_registry.cc:ComputeVisibleFieldsMap,FieldIsVisible", "checker/internal/proto_type_mask.cc:FindMessage,FindField", "checker/internal/field_path.h:FieldPath"])

p("C119", "masked context declarations hide fields",
  "After AddContextDeclarationWithProtoTypeMask, expressions can use as variables the fields that start one of the paths, and can select, in the message types the paths enter, only the fields they go through; the paths of several calls add up. (Refuted for calls made by a library: every configuration applied later replaces its masks, and the fields they hide can be selected. Refuted for refused calls: the mask of a call that returned an error still makes its fields visible. Refuted with JSON field names: a listed field cannot be selected.)",
  "all descriptor pools, all sequences of calls, all libraries", "pools of any size, any number of declarations and libraries",
  ["checker/internal/type_checker_builder_impl.cc:AddContextDeclarationWithProtoTypeMask,AddContextDeclarationVariables,ApplyConfig,ConfigureTypeCheckEnv", "checker/internal/type_check_env.h:CreateProtoTypeMaskRegistry", "checker/internal/type_check_env.cc:LookupStructField"])

p("C120", "regex.extract and regex.extractAll give the matches",
  "regex.extract gives the leftmost match of the pattern in the target, or the text of its only group, and none if there is no match. regex.extractAll ends for every pattern and target and gives all matches that are not empty and do not overlap, from left to right; what it gives are pieces of the target in order, and the first is what extract gives. Bad patterns and patterns with more than one group are errors. (Refuted for patterns that look at what is before the match: regex.extractAll('aaa', '^a') has three elements.)",
  "all patterns and targets, any RE2 that finds matches inside the text", "targets of any length, arbitrary patterns including those that match the empty text",
  ["extensions/regex_ext.cc:Extract,ExtractAll"])

p("C121", "regex.replace replaces as many matches as it is told",
  "regex.replace without a count, or with a negative one, ends and replaces all matches that do not overlap; with a count n it replaces the first n of them, so any count that is at least the number of matches is as good as none. (Refuted for patterns that look at what is before: replacing '^a' in 'aaa' twice changes two characters, replacing all of it one. Refuted for patterns that match the empty text: all n replacements are made at the same place, so the work and the result grow with n whatever the target. Refuted for counts of 2^31 and more: the counter overflows.)",
  "all patterns, targets, replacement strings and counts", "targets of any length, counts over the whole range of int",
  ["extensions/regex_ext.cc:ReplaceAll,ReplaceN"])

p("C122", "replacement strings are checked",
  "regex.replace accepts exactly the replacement strings made of characters other than the backslash, of \\\\ and of \\0 to \\9 where the pattern has a group of that number, and reports the others as invalid arguments; each match is replaced by the string with the texts of its groups in place; the internal error for a rewrite that fails after that check is never given. (Refuted for the count 0: bad patterns and replacement strings are not reported.)",
  "all replacement strings, patterns with any number of groups", "strings of any length",
  ["extensions/regex_ext.cc:ReplaceAll,ReplaceN"])

p("C123", "one macro for each shape of call",
  "Macros can be made for identifiers only. After any sequence of registrations, the macro found for a call (name, number of arguments, receiver or global) is the one registered for just that number, else the one registered for any number, else none. A registration of several macros is all or nothing: it is refused just if two macros, new or registered, are for the same calls, and then no call finds another macro than before.",
  "all sequences of registrations, all lists of macros, all calls", "any number of macros, arbitrary names and numbers of arguments",
  ["parser/macro.cc:Key,Make", "parser/macro_registry.cc:RegisterMacro,RegisterMacros,FindMacro"])

p("C124", "a parser has the macros its builder was asked for",
  "Build succeeds just if no two macros that were asked for are for the same calls, nor two of one library, and the parser then expands just those: the macros of the libraries, less those a subset leaves out, the standard macros unless they are disabled or come with a library of that name, the optional macros likewise, and the macros added alone. No two libraries have the same name. The builder made from a parser builds a parser with the same macros, in whatever order the hash map lists them.",
  "all sequences of calls of the builder, all libraries, subsets and options, all orders of a hash map", "any number of libraries and macros, all iteration orders",
  ["parser/parser.cc:ParserBuilderImpl,ParserImpl::ToBuilder", "parser/macro_registry.cc:ListMacros"])

p("C125", "a call finds the function of the innermost container",
  "A call of a name in a container, planned with reference resolution on, finds the overloads registered under that name in the innermost container that has some with that number of arguments, a name with a leading dot only the ones in the root, and a warning is given just if no container has one. (Refuted in general: a name that was resolved is resolved in the container once more when it is planned; in the container a, the call f(x) finds a.a.f although a.f is registered, and even if just f and a.a.f are. Proved for eager functions where no function is called like a candidate behind another container.)",
  "all registries of eager functions, containers, names and numbers of arguments", "containers and names with any number of parts, any number of registered functions",
  ["eval/compiler/qualified_reference_resolver.cc:BestOverloadMatch,OverloadExists,IsSpecialFunction", "eval/compiler/resolver.cc:FindOverloads,FindLazyOverloads,FullyQualifiedNames"])

p("C126", "the references of a checked expression are put in",
  "Resolving references ends for every expression. Wherever it is, a qualified name x.f1.f2... becomes the variable given to its longest part with a reference, with the remaining fields selected from it; a part with an integer value becomes that integer; a call without receiver gets its resolved name, with a warning just if there is none. A receiver without references is taken for a namespace, and is no receiver any more, just if a function is found under the qualified name; a receiver that is a variable stays one. (Refuted for variables written by just their name: if x is a variable by the references and a function x.f is registered in the runtime, x.f(1) becomes a call of that function, not of the method f.)",
  "all expressions, reference maps, registries and containers", "expressions of any size, names with any number of parts, arbitrary reference maps",
  ["eval/compiler/qualified_reference_resolver.cc:PreVisitRewrite,PostVisitRewrite,MaybeUpdateCallNode,MaybeUpdateSelectNode,MaybeUpdateIdentNode,ToNamespace,ResolveReferences,UpdateAst"])

p("C127", "the text of a type says which type it is",
  "FormatTypeName ends for every type, however deeply nested, and writes it as its name followed by its parameters in brackets, in order and separated by commas, so that the text of a type contains the texts of its parameters; two types with the same text are the same. (Refuted in general: enums are written as int, functions as errors, and a message, an opaque type and a type parameter of the same name look alike, so a checker can say that list(int) is not list(int). Proved for types without enums and functions whose names have no brackets nor commas, are not names of built-in types, and tell messages, opaque types and type parameters apart.)",
  "all types", "types nested to any depth, opaque types with any number of parameters, arbitrary names",
  ["common/format_type_name.cc:FormatImpl,FormatTypeName"])

p("C128", "the values of registered enums",
  "Whatever enums are registered and however many threads ask for the table of enum values at the same time, in any order, each is given the number that every enumerator was last registered with and nothing else; threads with no registration in between are given the same table, and a table that was given never changes. (Refuted where asking overlaps with a registration: a table without the new enum can be left behind, which everyone is then given for good. Refuted for enumerators with dots in their names: two enums can then claim one name, and the order of a hash map decides. Proved where registrations overlap with nothing and enumerators have no dots.)",
  "all histories of registrations, any number of threads, all schedules, all orders of a hash map", "any number of threads and enums, all interleavings",
  ["runtime/type_registry.cc:RegisterEnum,GetEnumValueTable", "runtime/type_registry.h:TypeRegistry"])

p("C129", "configurations of environments are consistent",
  "After any calls on a Config, each extension is included in one version, each variable once and with no value or one of its type, and the standard library is not limited both by what is included and by what is excluded, nor by a function as a whole and one of its overloads. A call is accepted just if it keeps that so, and then adds just what it says; else it fails and changes nothing. A compiler made from it has just those overloads and macros of the standard library that the limits leave, by the name of the function, the id or the signature of the overload, and the name of the macro.",
  "all sequences of calls, all limits, overloads and macros", "any number of calls and entries",
  ["env/config.cc:AddExtensionConfig,SetStandardLibraryConfig,AddVariableConfig,AddFunctionConfig", "env/env.cc:ShouldIncludeMacro,ShouldIncludeFunction"])
