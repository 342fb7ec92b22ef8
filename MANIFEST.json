{
 "claims": [
  {
   "property": "C01",
   "status": "proved",
   "theorems": [
    "C01_int_arithmetic_exact_or_error",
    "C01_uint_arithmetic_exact_or_error",
    "C01_int_div_mod",
    "C01_uint_div_mod",
    "C01_mod_min_by_minus_one_is_error"
   ],
   "note": "Both the compiler-builtin and the portable variant of every checked operation. INT64_MIN % -1 is an error although 0 is representable (C01_mod_min_by_minus_one_is_error); the property statement names this exception."
  },
  {
   "property": "C02",
   "status": "proved",
   "theorems": [
    "C02_int_division_law",
    "C02_uint_division_law"
   ],
   "note": "int and uint."
  },
  {
   "property": "C03",
   "status": "partial",
   "theorems": [
    "C03_comparison_matches_order_partial",
    "C03_comparison_never_reversed",
    "C03_comparison_matches_order_refuted"
   ],
   "note": "Exact order for all pairs that are exactly comparable (partial theorem); for all pairs without exception: strict answers are right, never reversed, and a wrong \"equal\" is within 1024. Full statement refuted by a concrete pair (2^53+1 vs 2^53 as a double)."
  },
  {
   "property": "C04",
   "status": "proved",
   "theorems": [
    "C04_comparison_operators_consistent",
    "C04_less_than_transitive"
   ],
   "note": ""
  },
  {
   "property": "C05",
   "status": "partial",
   "theorems": [
    "C05_numeric_equality_reflexive_symmetric",
    "C05_numeric_equality_transitive_partial",
    "C05_numeric_equality_transitive_refuted"
   ],
   "note": "Reflexive and symmetric in full; transitivity refuted beyond 2^53, proved on exactly comparable triples."
  },
  {
   "property": "C06",
   "status": "proved",
   "theorems": [
    "C06_double_to_int",
    "C06_double_to_uint",
    "C06_int_uint_conversions",
    "C06_int_uint_round_trip"
   ],
   "note": "The documented range for int(double) is the open interval (-2^63, 2^63)."
  },
  {
   "property": "C07",
   "status": "proved",
   "theorems": [
    "C07_lossless_to_int",
    "C07_lossless_to_uint"
   ],
   "note": ""
  },
  {
   "property": "C08",
   "status": "partial",
   "theorems": [
    "C08_timestamp_plus_duration",
    "C08_duration_arithmetic_partial",
    "C08_timestamp_minus_duration_partial",
    "C08_timestamp_difference_partial",
    "C08_add_then_subtract_partial",
    "C08_duration_arithmetic_refuted",
    "C08_timestamp_minus_duration_refuted",
    "C08_unchecked_exact",
    "C08_duration_accessors",
    "C08_unchecked_range_refuted"
   ],
   "note": "timestamp + duration proved in full. Durations beyond 2^63 ns, although accepted by the validity check, are silently clamped by the checked duration operations (refutations). With the overflow option off (default) results are exact but can leave the range (refutation). The difference of timestamps may spuriously fail within one second of the 64-bit nanosecond bound."
  },
  {
   "property": "C09",
   "status": "proved",
   "theorems": [
    "C09_decode_encode",
    "C09_encode_invalid",
    "C09_decode_total",
    "C09_decode_cord"
   ],
   "note": "Flat and Cord-iterator decoding."
  },
  {
   "property": "C10",
   "status": "proved",
   "theorems": [
    "C10_valid_iff_well_formed",
    "C10_count_is_length",
    "C10_count_malformed",
    "C10_validate_prefix",
    "C10_cord_valid_iff_well_formed",
    "C10_cord_count_is_length"
   ],
   "note": "Flat strings and Cords; malformed flat strings count each byte that starts no character as one."
  },
  {
   "property": "C11",
   "status": "proved",
   "theorems": [
    "C11_string_literal_round_trip",
    "C11_escape_round_trip"
   ],
   "note": "All three quoting functions and EscapeString/UnescapeString."
  },
  {
   "property": "C12",
   "status": "proved",
   "theorems": [
    "C12_bytes_literal_round_trip",
    "C12_escape_round_trip"
   ],
   "note": ""
  },
  {
   "property": "C13",
   "status": "proved",
   "theorems": [
    "C13_source_content",
    "C13_malformed_rejected",
    "C13_positions",
    "C13_snippet"
   ],
   "note": "Also: the content is the decoded text, snippets are its lines, malformed texts are rejected."
  },
  {
   "property": "C14",
   "status": "proved",
   "theorems": [
    "C14_equality_reflexive",
    "C14_nan_not_equal"
   ],
   "note": ""
  },
  {
   "property": "C15",
   "status": "partial",
   "theorems": [
    "C15_equality_symmetric_partial",
    "C15_contains_equality_symmetric_partial",
    "C15_equality_symmetric_refuted"
   ],
   "note": "Refuted for maps holding 1 and 1u at once; proved when no map has two numerically equal keys."
  },
  {
   "property": "C16",
   "status": "proved",
   "theorems": [
    "C16_map_build"
   ],
   "note": ""
  },
  {
   "property": "C17",
   "status": "partial",
   "theorems": [
    "C17_in_list_sound",
    "C17_in_list_partial",
    "C17_in_list_refuted"
   ],
   "note": "Soundness for all values; completeness when no map inside has a uint key; refuted otherwise ({1: 2} in [{1u: 2}])."
  },
  {
   "property": "C18",
   "status": "partial",
   "theorems": [
    "C18_in_map_and_index",
    "C18_registered_in_map_partial",
    "C18_registered_in_map_uint_partial",
    "C18_registered_in_map_refuted",
    "C18_list_index"
   ],
   "note": "The built-in operators are proved in full; the registered uint overload tests the wrong variable and misses int keys (refutation)."
  },
  {
   "property": "C19",
   "status": "proved",
   "theorems": [
    "C19_and",
    "C19_or",
    "C19_undecided",
    "C19_commute",
    "C19_de_morgan",
    "C19_direct_agrees",
    "C19_not_strictly_false"
   ],
   "note": "Iterative and recursive logic steps, with and without unknown processing."
  },
  {
   "property": "C20",
   "status": "partial",
   "theorems": [
    "C20_same_result_partial",
    "C20_same_result_syntax_partial",
    "C20_macros",
    "C20_error_name_refuted",
    "C20_bind_refuted",
    "C20_custom_loop_refuted",
    "C20_unknown_value_refuted"
   ],
   "note": "Proved for every expression whose comprehensions are those of the macros (C20_macros), up to the name in a ternary error, on hosts making no unknown values, when the slots of cel.bind variables are apart from those of early-exit comprehensions (in particular without cel.bind) and within the iteration budget. Each condition is needed: four refutations."
  },
  {
   "property": "C21",
   "status": "partial",
   "theorems": [
    "C21_plan_correct_slots_apart_partial",
    "C21_plan_correct_partial",
    "C21_refuted"
   ],
   "note": "Proved whenever bind slots are apart from the slots a short-circuited comprehension leaves set: with short-circuiting off, without cel.bind, or without early-exit comprehensions. Refuted otherwise (same cause as C25)."
  },
  {
   "property": "C22",
   "status": "partial",
   "theorems": [
    "C22_recursive_meaning_partial",
    "C22_programs_agree_slots_apart_partial",
    "C22_programs_agree_partial",
    "C22_macros",
    "C22_loop_step_refuted",
    "C22_map_literal_refuted",
    "C22_bind_refuted",
    "C22_has_optional_refuted",
    "C22_unknown_key_refuted",
    "C22_unknown_trail_refuted"
   ],
   "note": "The recursive program computes the meaning of the expression when its loop steps may run in place (all macros, C22_macros), and then agrees with the iterative program up to which error is reported. Refuted for: custom loop steps that alias the accumulator, colliding map literal keys, has() on optionals, unknown tracking (two ways), and the slot leak of C25."
  },
  {
   "property": "C23",
   "status": "proved",
   "theorems": [
    "C23_evaluation_well_behaved"
   ],
   "note": "Iterative programs. The recursive counterpart is C54."
  },
  {
   "property": "C24",
   "status": "proved",
   "theorems": [
    "C24_iteration_budget",
    "C24_no_limit"
   ],
   "note": "Iterative programs. The recursive counterpart is C53."
  },
  {
   "property": "C25",
   "status": "partial",
   "theorems": [
    "C25_siblings_unaffected_partial",
    "C25_lexical_scope_partial",
    "C25_refuted"
   ],
   "note": "Refuted for the default planner: a short-circuited comprehension leaves its slot set and a sibling cel.bind reads it. Proved with short-circuiting off, or when no cel.bind or no early-exit comprehension occurs."
  },
  {
   "property": "C26",
   "status": "partial",
   "theorems": [
    "C26_expansions",
    "C26_exists",
    "C26_all",
    "C26_exists_one",
    "C26_map",
    "C26_map_where",
    "C26_filter",
    "C26_bad_range",
    "C26_run_partial"
   ],
   "note": "Meaning level theorems for each macro over all lists and maps in full; C26_run_partial lifts them to programs under the side condition of C21."
  },
  {
   "property": "C27",
   "status": "proved",
   "theorems": [
    "C27_calls_end_to_end",
    "C27_invocations_proper",
    "C27_one_call"
   ],
   "note": ""
  },
  {
   "property": "C28",
   "status": "proved",
   "theorems": [
    "C28_at_most_one_overload",
    "C28_rejection",
    "C28_order_independent"
   ],
   "note": ""
  },
  {
   "property": "C29",
   "status": "partial",
   "theorems": [
    "C29_initialised_at_most_once",
    "C29_means_substitution_partial",
    "C29_refuted"
   ],
   "note": "At most once: in full. Substitution: partial (the slot leak of C25 refutes it in general)."
  },
  {
   "property": "C30",
   "status": "proved",
   "theorems": [
    "C30_full_match",
    "C30_partial_match",
    "C30_extension_keeps_full",
    "C30_several_patterns"
   ],
   "note": ""
  },
  {
   "property": "C31",
   "status": "partial",
   "theorems": [
    "C31_merge_is_union_partial",
    "C31_sets_well_formed_partial",
    "C31_call_unknowns_partial",
    "C31_aggregate_unknowns_partial",
    "C31_merge_refuted"
   ],
   "note": "Proved for attributes whose qualifiers come from key kinds. Refuted for others: operator< leaves attributes with an invalid qualifier (e.g. a[1.0] matched by a wildcard) incomparable, and the set drops one. Unknown function results are not modelled."
  },
  {
   "property": "C32",
   "status": "partial",
   "theorems": [
    "C32_same_program",
    "C32_completion_partial",
    "C32_scalar_partial",
    "C32_decision_partial",
    "C32_container_refuted",
    "C32_exhaustive_refuted",
    "C32_optional_refuted",
    "C32_number_refuted",
    "C32_not_strictly_false_refuted",
    "C32_status_refuted"
   ],
   "note": "Proved for source-language expressions with short-circuiting: the completed result is the same scalar, or also an error, or the same container except at attributes marked unknown. Refuted in six ways: containers returned whole, exhaustive ternary, orValue, numeric keys of another kind, @not_strictly_false used directly, and completions that fail with a status (duplicate map keys). Unknown function results and missing attributes are not modelled."
  },
  {
   "property": "C33",
   "status": "proved",
   "theorems": [
    "C33_tree",
    "C33_evaluation",
    "C33_variadic",
    "C33_evaluation_any",
    "C33_error_choice"
   ],
   "note": "Up to 2^30 operands (the balancer indexes with int)."
  },
  {
   "property": "C34",
   "status": "proved",
   "theorems": [
    "C34_containers",
    "C34_once",
    "C34_root",
    "C34_alias",
    "C34_qualified",
    "C34_qualified_root",
    "C34_qualified_alias",
    "C34_runtime"
   ],
   "note": ""
  },
  {
   "property": "C35",
   "status": "proved",
   "theorems": [
    "C35_acyclic",
    "C35_terminates",
    "C35_check_terminates",
    "C35_substitution_terminates",
    "C35_overlapping_contexts_cycle"
   ],
   "note": "One context at a time. Two overlapping prospective contexts can still create a cycle (C35_overlapping_contexts_cycle), which the checker does not do."
  },
  {
   "property": "C36",
   "status": "partial",
   "theorems": [
    "C36_reflexive",
    "C36_dyn_any",
    "C36_refused_unchanged",
    "C36_bindings_stay",
    "C36_ground",
    "C36_plain_equal_partial",
    "C36_plain_most_general_partial",
    "C36_plain_refused_partial",
    "C36_success_refuted",
    "C36_list_literal_refuted",
    "C36_collected_refuted"
   ],
   "note": "Reflexivity, dyn/any, rollback, monotonicity and ground types in full. For plain types (no dyn, wrapper, null) success gives equal instances and a most general substitution. Refuted in general: success does not imply conformity once dyn or null widening is involved."
  },
  {
   "property": "C37",
   "status": "partial",
   "theorems": [
    "C37_contains",
    "C37_intersects",
    "C37_intersects_symmetric",
    "C37_equivalent",
    "C37_equivalence",
    "C37_contains_operator_partial",
    "C37_contains_operator_refuted",
    "C37_equivalence_refuted"
   ],
   "note": "Laws in full for the operations as defined; agreement of sets.contains with == refuted for maps whose keys differ in kind; equivalence not transitive on mixed numerics beyond 2^53."
  },
  {
   "property": "C38",
   "status": "partial",
   "theorems": [
    "C38_slice",
    "C38_reverse",
    "C38_flatten",
    "C38_flatten_idempotent",
    "C38_range",
    "C38_range_negative_refuted",
    "C38_distinct",
    "C38_distinct_first",
    "C38_distinct_first_refuted",
    "C38_sort_by_keys",
    "C38_sort",
    "C38_sort_errors",
    "C38_sort_nan_refuted"
   ],
   "note": "lists.range of a negative number aborts the process (refuted); sort with NaN violates the precondition of std::sort (refuted); distinct may keep a later element when numeric equality is not transitive (refuted). Everything else in full."
  },
  {
   "property": "C39",
   "status": "proved",
   "theorems": [
    "C39_greatest",
    "C39_least",
    "C39_few_arguments",
    "C39_pick_errors",
    "C39_abs",
    "C39_abs_double",
    "C39_sign",
    "C39_bit_operations",
    "C39_bit_not",
    "C39_shifts"
   ],
   "note": "ceil, floor, round, trunc, sqrt and the classification functions are not modelled."
  },
  {
   "property": "C40",
   "status": "proved",
   "theorems": [
    "C40_parsed_strings_well_formed"
   ],
   "note": ""
  },
  {
   "property": "C41",
   "status": "proved",
   "theorems": [
    "C41_string_escapes",
    "C41_bytes_escapes",
    "C41_quoted_literal"
   ],
   "note": "Unescape functions for every text; literals in single or double quotes with every inner quote escaped. Triple-quoted literals are modelled but only their well-formedness (C40) is proved."
  },
  {
   "property": "C42",
   "status": "partial",
   "theorems": [
    "C42_cord_validate_agrees_partial",
    "C42_cord_count_refuted"
   ],
   "note": "Validity and validation agree for all byte strings, the count for all well-formed ones. Refuted for the count of malformed Cords: the reader overwrites its buffer when it peeks twice, and then aborts (E1 E1 80 41 41)."
  },
  {
   "property": "C43",
   "status": "partial",
   "theorems": [
    "C43_largest_source_refuted",
    "C43_source_size_partial"
   ],
   "note": "Refuted at exactly 2^31 - 1 bytes: the size check accepts the text and the final offset + 1 overflows int32_t. Proved for every other size."
  },
  {
   "property": "C44",
   "status": "partial",
   "theorems": [
    "C44_equality_meaning_partial",
    "C44_equality_total",
    "C44_contains_equality_meaning",
    "C44_equality_meaning_refuted"
   ],
   "note": "Refuted inside optionals, which compare with the stricter element equality; proved when optionals hold no map with uint keys and no map has two numerically equal keys."
  },
  {
   "property": "C45",
   "status": "partial",
   "theorems": [
    "C45_optional_index_partial",
    "C45_optional_holds_error_refuted"
   ],
   "note": "Proved for optionals holding maps indexed with keys of a lookup kind; refuted for lists and wrong-typed keys."
  },
  {
   "property": "C46",
   "status": "proved",
   "theorems": [
    "C46_expansions",
    "C46_exists",
    "C46_all",
    "C46_exists_one",
    "C46_transform_list",
    "C46_transform_list_where",
    "C46_transform_map",
    "C46_transform_map_where",
    "C46_transform_map_entry",
    "C46_transform_map_entry_where",
    "C46_transform_map_of_map"
   ],
   "note": "All nine macros over lists and maps at the meaning level."
  },
  {
   "property": "C47",
   "status": "proved",
   "theorems": [
    "C47_opt_map",
    "C47_opt_flat_map",
    "C47_error_operand"
   ],
   "note": "Short-circuiting plans."
  },
  {
   "property": "C48",
   "status": "proved",
   "theorems": [
    "C48_well_formed",
    "C48_set_container",
    "C48_add_alias",
    "C48_abbreviation",
    "C48_identifier"
   ],
   "note": ""
  },
  {
   "property": "C49",
   "status": "partial",
   "theorems": [
    "C49_static",
    "C49_lazy",
    "C49_call_partial",
    "C49_lazy_in_container_refuted",
    "C49_lazy_hides_refuted",
    "C49_root_lazy"
   ],
   "note": "Eager functions in full. Refuted for lazy functions, which are looked up by unqualified name only."
  },
  {
   "property": "C50",
   "status": "proved",
   "theorems": [
    "C50_greatest",
    "C50_least",
    "C50_rejected"
   ],
   "note": ""
  },
  {
   "property": "C51",
   "status": "partial",
   "theorems": [
    "C51_list_partial",
    "C51_map_partial",
    "C51_empty_list",
    "C51_map_widening_refuted"
   ],
   "note": "Plain element types. Refuted for maps mixing null and message values."
  },
  {
   "property": "C52",
   "status": "proved",
   "theorems": [
    "C52_recursion_limit",
    "C52_accepted"
   ],
   "note": "Planning with max_recursion_depth n > 0, -1."
  },
  {
   "property": "C53",
   "status": "proved",
   "theorems": [
    "C53_iteration_budget",
    "C53_same_plan"
   ],
   "note": "Recursive programs."
  },
  {
   "property": "C54",
   "status": "proved",
   "theorems": [
    "C54_recursive_well_behaved"
   ],
   "note": "Recursive programs."
  },
  {
   "property": "C55",
   "status": "proved",
   "theorems": [
    "C55_type_round_trip",
    "C55_overload_round_trip",
    "C55_white_space",
    "C55_total",
    "C55_overload_total"
   ],
   "note": "Nesting counters unbounded; error texts shortened."
  },
  {
   "property": "C56",
   "status": "partial",
   "theorems": [
    "C56_overload_distinct_partial",
    "C56_type_distinct_partial",
    "C56_distinct_refuted"
   ],
   "note": "Proved when the names of message and abstract types are not signature words of other types; refuted without that."
  },
  {
   "property": "C57",
   "status": "partial",
   "theorems": [
    "C57_type_stable_partial",
    "C57_overload_stable_partial",
    "C57_stable_refuted"
   ],
   "note": "Writing always succeeds; reading back proved for names without white space, refuted with it."
  },
  {
   "property": "C58",
   "status": "partial",
   "theorems": [
    "C58_no_race",
    "C58_provider_calls",
    "C58_provider_once",
    "C58_no_overlap",
    "C58_results",
    "C58_agreement",
    "C58_bindings",
    "C58_progress_partial",
    "C58_progress_refuted"
   ],
   "note": "Safety in full, under sequential consistency (justified by the absence of races). Progress proved when providers end and do not look up provided variables of the same activation; refuted otherwise."
  },
  {
   "property": "C59",
   "status": "partial",
   "theorems": [
    "C59_move_partial",
    "C59_matcher_refuted"
   ],
   "note": "Refuted for the attribute matcher only."
  },
  {
   "property": "C60",
   "status": "partial",
   "theorems": [
    "C60_arena_partial",
    "C60_arena_refuted"
   ],
   "note": "Proved when all evaluations use one arena; refuted otherwise."
  },
  {
   "property": "C61",
   "status": "proved",
   "theorems": [
    "C61_same_result",
    "C61_same_plans",
    "C61_plan_time_run",
    "C61_constant_expressions"
   ],
   "note": "Iterative programs; the runtime is assumed to iterate equal maps in the same order at plan time and at run time."
  },
  {
   "property": "C62",
   "status": "proved",
   "theorems": [
    "C62_accepts",
    "C62_first_match",
    "C62_optional"
   ],
   "note": "cel.@block is read as nested bindings of @index0, @index1, ...; the final type check is left out. No claim about the value when the verdict is an unknown."
  },
  {
   "property": "C63",
   "status": "proved",
   "theorems": [
    "C63_unnesting",
    "C63_refused"
   ],
   "note": "cel.@block is read as nested bindings."
  },
  {
   "property": "C64",
   "status": "partial",
   "theorems": [
    "C64_variables_refuted",
    "C64_height_limit_refuted",
    "C64_height_partial"
   ],
   "note": "Refuted, with and without policy variables. Proved for rules without nested rules, with the height of the expressions of the policy as margin."
  },
  {
   "property": "C65",
   "status": "partial",
   "theorems": [
    "C65_conditions_refuted",
    "C65_replacement_partial"
   ],
   "note": "Proved for replacements that keep the literal true; refuted for those that do not."
  },
  {
   "property": "C66",
   "status": "proved",
   "theorems": [
    "C66_index_of",
    "C66_index_of_from",
    "C66_last_index_of",
    "C66_last_index_of_from",
    "C66_contains"
   ],
   "note": "Strings whose byte size fits int64_t; well-formed UTF-8."
  },
  {
   "property": "C67",
   "status": "partial",
   "theorems": [
    "C67_char_at",
    "C67_substring_from_partial",
    "C67_substring_cord_refuted",
    "C67_substring_partial",
    "C67_substring_end_refuted"
   ],
   "note": "charAt in full; substring proved except for the two refuted cases."
  },
  {
   "property": "C68",
   "status": "proved",
   "theorems": [
    "C68_split",
    "C68_split_determined",
    "C68_join",
    "C68_join_refuses",
    "C68_join_of_split"
   ],
   "note": "Strings whose byte size fits int64_t; well-formed UTF-8."
  },
  {
   "property": "C69",
   "status": "proved",
   "theorems": [
    "C69_replace",
    "C69_replace_same"
   ],
   "note": "Strings whose byte size fits int64_t; well-formed UTF-8."
  },
  {
   "property": "C70",
   "status": "proved",
   "theorems": [
    "C70_case",
    "C70_trim",
    "C70_reverse",
    "C70_quote"
   ],
   "note": "Well-formed UTF-8."
  },
  {
   "property": "C71",
   "status": "partial",
   "theorems": [
    "C71_accepted_is_well_typed_partial",
    "C71_loop_types_refuted",
    "C71_condition_scope_refuted",
    "C71_nested_range_refuted",
    "C71_first_overload_refuted",
    "C71_bound_select_refuted"
   ],
   "note": "Proved for expressions whose recorded types are free of dyn, null, wrappers and types of types, whose loops have boolean conditions that do not read the loop variables and steps of the type of the accumulator, without optional field selection and without selection on bare type variables; refuted, with concrete expressions, where loop types or bound type variables are concerned. Empty container, no message construction."
  },
  {
   "property": "C72",
   "status": "proved",
   "theorems": [
    "C72_checking_terminates"
   ],
   "note": "Empty container, no message construction, no limit on the number of nodes or issues."
  },
  {
   "property": "C73",
   "status": "proved",
   "theorems": [
    "C73_undeclared_is_reported"
   ],
   "note": "Empty container, no message construction; calls of the optional select operator excepted."
  },
  {
   "property": "C74",
   "status": "partial",
   "theorems": [
    "C74_well_typed_evaluation",
    "C74_well_typed_program_partial",
    "C74_checked_program_partial",
    "C74_dyn_refuted",
    "C74_key_types_refuted",
    "C74_optional_index_refuted"
   ],
   "note": "Unknown processing off, messages not modelled, standard declarations of the operators. The reference semantics in full; programs under the hypotheses of C21; checker acceptance under the hypotheses of C71. Refuted for dyn, map keys and indexing of optionals."
  },
  {
   "property": "C75",
   "status": "proved",
   "theorems": [
    "C75_never_undefined",
    "C75_alive_while_owned",
    "C75_nothing_leaks",
    "C75_strengthen",
    "C75_expired_for_ever",
    "C75_unique_expired",
    "C75_limit_needed"
   ],
   "note": "Sequentially consistent interleavings of the atomic operations; C75_limit_needed shows that the limit on the number of references cannot be dropped."
  },
  {
   "property": "C76",
   "status": "partial",
   "theorems": [
    "C76_round_trip_partial",
    "C76_stable_partial",
    "C76_exact_partial",
    "C76_postfix_refuted",
    "C76_sign_refuted",
    "C76_operators_refuted",
    "C76_has_refuted",
    "C76_field_refuted",
    "C76_in_refuted",
    "C76_double_refuted",
    "C76_two_variables_refuted"
   ],
   "note": "Proved for printable expressions (S_Unparse.printable) whose text has at most 2^30 characters, up to grouping and, without balancing, exactly; refuted for the expressions listed. No doubles, no messages; ids, positions and recorded macro calls are not modelled."
  },
  {
   "property": "C77",
   "status": "proved",
   "theorems": [
    "C77_grammar",
    "C77_unambiguous",
    "C77_precedence",
    "C77_left_grouping",
    "C77_logical"
   ],
   "note": "Token level; the lexer is the model of M_Lex (its tokens are part of the statement). No message construction; ids, positions, the recursion limit and error texts are not modelled; the expansion of macros and the balancing of && and || are those of C26, C33, C46, C47."
  },
  {
   "property": "C78",
   "status": "partial",
   "theorems": [
    "C78_contents",
    "C78_debug_refuted"
   ],
   "note": "Proved for release builds; refuted for debug builds. One thread (C75 for the counts). Caller-made Cords hold copies."
  },
  {
   "property": "C79",
   "status": "partial",
   "theorems": [
    "C79_freed_once",
    "C79_not_early",
    "C79_allocator_refuted"
   ],
   "note": "Counts do not overflow (C75). The promise that the allocator does not change is refuted; C78 and C79 use the arenas that the operations really leave."
  },
  {
   "property": "C80",
   "status": "proved",
   "theorems": [
    "C80_format",
    "C80_total"
   ],
   "note": "The digits of doubles and the text of timestamps are parameters. Both directions for arguments of which no map has two keys with the same text (C82 says what happens then); totality for all arguments. Finite durations of whole nanoseconds, no messages."
  },
  {
   "property": "C81",
   "status": "proved",
   "theorems": [
    "C81_integer",
    "C81_injective"
   ],
   "note": "The digits that absl prints for %o, %d and %x are modelled, not proved; %b is the loop of the code."
  },
  {
   "property": "C82",
   "status": "partial",
   "theorems": [
    "C82_order_refuted",
    "C82_order_partial"
   ],
   "note": "Proved when no map has two keys with the same text; refuted otherwise."
  },
  {
   "property": "C83",
   "status": "partial",
   "theorems": [
    "C83_utf8_refuted",
    "C83_utf8_partial"
   ],
   "note": "Proved for arguments without bytes values, when the texts of doubles and timestamps are ASCII; refuted for bytes."
  },
  {
   "property": "C84",
   "status": "proved",
   "theorems": [
    "C84_traverse",
    "C84_terminates",
    "C84_step",
    "C84_order"
   ],
   "note": "Callbacks are recorded as events with the expressions they get; the visitors themselves are not modelled. Addresses and source positions are not modelled."
  },
  {
   "property": "C85",
   "status": "proved",
   "theorems": [
    "C85_build",
    "C85_preorder",
    "C85_find",
    "C85_unique"
   ],
   "note": "Nodes are numbered by their index; FindExpr, which looks up an address, is not modelled."
  },
  {
   "property": "C86",
   "status": "partial",
   "theorems": [
    "C86_postorder_refuted",
    "C86_postorder_partial",
    "C86_relation_partial",
    "C86_relation_refuted"
   ],
   "note": "Postorder: refuted for every node but the root, proved for the root. Relations: proved when every map entry has its key and its value, refuted otherwise."
  },
  {
   "property": "C87",
   "status": "proved",
   "theorems": [
    "C87_rewrite",
    "C87_defined",
    "C87_terminates",
    "C87_forever"
   ],
   "note": "A pointer is a place in the tree; a callback changes only the expression it is given. The expressions behind the traversal path are part of the statement, addresses are not."
  },
  {
   "property": "C88",
   "status": "partial",
   "theorems": [
    "C88_bottom_up",
    "C88_unchanged_partial",
    "C88_unchanged_refuted",
    "C88_callbacks"
   ],
   "note": "Unchanged trees: proved when every list element and every piece of a comprehension is set, refuted otherwise (they get set)."
  },
  {
   "property": "C89",
   "status": "partial",
   "theorems": [
    "C89_defined",
    "C89_roundtrip_partial",
    "C89_roundtrip_refuted",
    "C89_stable",
    "C89_message",
    "C89_injective"
   ],
   "note": "Proved when every struct has a name and every list element is set; refuted for structs without a name. Unset list elements come back set (to the empty expression)."
  },
  {
   "property": "C90",
   "status": "partial",
   "theorems": [
    "C90_roundtrip_partial",
    "C90_roundtrip_refuted",
    "C90_message",
    "C90_equivalence",
    "C90_copy_partial",
    "C90_copy_refuted",
    "C90_copy_message"
   ],
   "note": "Proved up to the type of the unset type (round trip) and the type of no type (copies); both exceptions refuted. Absent and empty submessages are the same message here."
  },
  {
   "property": "C91",
   "status": "partial",
   "theorems": [
    "C91_equivalence",
    "C91_same_partial",
    "C91_same_refuted",
    "C91_second_variable"
   ],
   "note": "Proved when everything that may be set is set, no constant is zero and no comprehension has a second variable; the last restriction is a defect, refuted."
  },
  {
   "property": "C92",
   "status": "partial",
   "theorems": [
    "C92_parsed_partial",
    "C92_checked_partial",
    "C92_defined",
    "C92_failures",
    "C92_copy_refuted"
   ],
   "note": "Proved for trees whose expressions are as in C89 and whose types are as in C90. Maps are lists of entries in the order of iteration; the destination message is new."
  },
  {
   "property": "C93",
   "status": "partial",
   "theorems": [
    "C93_step_partial",
    "C93_linear_partial",
    "C93_linear_refuted"
   ],
   "note": "Refuted by three accepted steps that double the accumulator; proved for steps that use the accumulator in the ways listed (plain_use) with a registry whose + and dyn return nothing larger than their operands. One iteration variable, unknown processing off. Errors and unknowns count as size one."
  },
  {
   "property": "C94",
   "status": "partial",
   "theorems": [
    "C94_every_node",
    "C94_counted",
    "C94_once_partial",
    "C94_once_refuted",
    "C94_macros"
   ],
   "note": "Proved except for names reused as a second iteration variable; that exception is refuted."
  },
  {
   "property": "C95",
   "status": "partial",
   "theorems": [
    "C95_no_collisions",
    "C95_collision_is_ambiguous",
    "C95_unambiguous_partial",
    "C95_unambiguous_refuted"
   ],
   "note": "Histories consist of AddOverload, set_name and release_overloads. Unambiguity is proved for parameter types without wrappers in which dyn is the whole type or below types with one parameter, and refuted otherwise."
  },
  {
   "property": "C96",
   "status": "partial",
   "theorems": [
    "C96_add",
    "C96_order",
    "C96_lookup_id",
    "C96_lookup_total",
    "C96_lookup_signature_partial",
    "C96_lookup_signature_refuted",
    "C96_default_ids_partial"
   ],
   "note": "Lookup by signature is proved when no other overload has that text as id or as signature, and refuted otherwise."
  },
  {
   "property": "C97",
   "status": "partial",
   "theorems": [
    "C97_decides",
    "C97_preorder",
    "C97_overlap",
    "C97_checker",
    "C97_type_params_partial",
    "C97_type_params_refuted"
   ],
   "note": "Agreement with the type checker is for types without type variables. Type parameters inside type(...) are not reported: refuted for those, proved for the others."
  },
  {
   "property": "C98",
   "status": "partial",
   "theorems": [
    "C98_specifiable",
    "C98_round_trip_partial",
    "C98_well_known",
    "C98_text_round_trip_partial",
    "C98_round_trip_refuted"
   ],
   "note": "A descriptor is its full name. Proved for types whose message and enum names the pool has and whose abstract type names it does not have; refuted for the latter. For texts, names are as in C55."
  },
  {
   "property": "C99",
   "status": "partial",
   "theorems": [
    "C99_map_partial",
    "C99_list_partial",
    "C99_chain",
    "C99_index_refuted"
   ],
   "note": "Unknown processing is off and values contain no errors. Proved for maps with bool, string, int, uint and double keys and for lists with int indexes; refuted for lists with other numeric indexes and for keys of invalid kinds."
  },
  {
   "property": "C100",
   "status": "proved",
   "theorems": [
    "C100_select_map",
    "C100_chain",
    "C100_read_back"
   ],
   "note": "Maps only: selection from messages is not modelled."
  },
  {
   "property": "C101",
   "status": "proved",
   "theorems": [
    "C101_non_zero",
    "C101_zero_meaning",
    "C101_or_default"
   ],
   "note": "All kinds except messages."
  },
  {
   "property": "C102",
   "status": "proved",
   "theorems": [
    "C102_unwrap",
    "C102_laws",
    "C102_ends",
    "C102_no_error_inside"
   ],
   "note": "All functions of optional types except selection from messages."
  },
  {
   "property": "C103",
   "status": "partial",
   "theorems": [
    "C103_enable",
    "C103_once",
    "C103_all_or_none_refuted"
   ],
   "note": "The overload for messages is left out of the list of registered functions. That a failed attempt registers nothing is refuted."
  },
  {
   "property": "C104",
   "status": "partial",
   "theorems": [
    "C104_read_back",
    "C104_int_accepts",
    "C104_uint_accepts",
    "C104_bool_accepts",
    "C104_bytes",
    "C104_twice_partial",
    "C104_twice_refuted"
   ],
   "note": "Printing and parsing of doubles is a parameter. That converting twice changes nothing is proved for builds without debug checks or with range errors, refuted otherwise."
  },
  {
   "property": "C105",
   "status": "partial",
   "theorems": [
    "C105_read_back",
    "C105_literal_partial",
    "C105_literal_refuted",
    "C105_only_literals",
    "C105_print_range",
    "C105_accessors"
   ],
   "note": "Durations are whole nanoseconds: parts below a nanosecond, which absl::Duration keeps in quarters, are not modelled, so a term with a fraction must be a whole number of nanoseconds and have at most nine digits after the point. Refuted for whole parts above 2^63-1, proved for the others."
  },
  {
   "property": "C106",
   "status": "partial",
   "theorems": [
    "C106_read_back",
    "C106_rfc3339",
    "C106_seconds",
    "C106_range_partial",
    "C106_range_refuted",
    "C106_only_rfc3339_refuted"
   ],
   "note": "absl::ParseTime and absl::FormatTime are read in M_Civil. The range is proved with the option on and refuted with the default options; that only texts of RFC 3339 are accepted is refuted."
  },
  {
   "property": "C107",
   "status": "partial",
   "theorems": [
    "C107_calendar",
    "C107_fields",
    "C107_days",
    "C107_zone_partial",
    "C107_zone_refuted"
   ],
   "note": "The database of time zones is a parameter; a zone is the seconds it is ahead of UTC at an instant. Errors for other zones: proved without colons, refuted with."
  },
  {
   "property": "C108",
   "status": "proved",
   "theorems": [
    "C108_duration",
    "C108_duration_messages",
    "C108_timestamp",
    "C108_timestamp_messages"
   ],
   "note": "A message is its pair of seconds and nanos."
  },
  {
   "property": "C109",
   "status": "partial",
   "theorems": [
    "C109_json",
    "C109_refused",
    "C109_from_json",
    "C109_round_trip_partial",
    "C109_round_trip_refuted",
    "C109_infinite_refuted"
   ],
   "note": "The texts of absl::Base64Escape and TimeUtil::ToString are readings of those libraries. Structs and messages are not modelled."
  },
  {
   "property": "C110",
   "status": "partial",
   "theorems": [
    "C110_equality",
    "C110_equivalence",
    "C110_transitive",
    "C110_nan_refuted"
   ],
   "note": "Messages have distinct field names. All proved but reflexivity with NaN, which is refuted as for CEL equality."
  },
  {
   "property": "C111",
   "status": "partial",
   "theorems": [
    "C111_encode",
    "C111_decode",
    "C111_canonical_refuted"
   ],
   "note": "absl::Base64Escape and absl::Base64Unescape are readings of Abseil, whose source is not in the repository."
  },
  {
   "property": "C112",
   "status": "partial",
   "theorems": [
    "C112_export_partial",
    "C112_refused",
    "C112_agrees",
    "C112_integers_refuted",
    "C112_keys_refuted"
   ],
   "note": "Proved for values whose map keys have distinct texts; refuted for the others. Messages are not modelled."
  },
  {
   "property": "C113",
   "status": "partial",
   "theorems": [
    "C113_order",
    "C113_total",
    "C113_transitive_partial",
    "C113_nan_refuted",
    "C113_errors_refuted"
   ],
   "note": "Transitivity is proved without NaN and for errors that differ; refuted for the others. Messages are ordered by address."
  },
  {
   "property": "C114",
   "status": "proved",
   "theorems": [
    "C114_depth",
    "C114_nesting",
    "C114_all",
    "C114_update"
   ],
   "note": "The nesting limit is not negative. Texts and positions of issues are left out."
  },
  {
   "property": "C115",
   "status": "proved",
   "theorems": [
    "C115_literals",
    "C115_accepted"
   ],
   "note": "absl::ParseTime and absl::ParseDuration are the readings of C105 and C106."
  },
  {
   "property": "C116",
   "status": "partial",
   "theorems": [
    "C116_types",
    "C116_equivalence",
    "C116_homogeneous_partial",
    "C116_error_refuted",
    "C116_parameter_refuted"
   ],
   "note": "Proved for type maps without error types and without optional_type lacking its parameter; refuted for the others."
  },
  {
   "property": "C117",
   "status": "proved",
   "theorems": [
    "C117_patterns"
   ],
   "note": "Whether RE2 accepts a pattern is a parameter."
  },
  {
   "property": "C118",
   "status": "proved",
   "theorems": [
    "C118_visible",
    "C118_accepted",
    "C118_order",
    "C118_paths"
   ],
   "note": "The descriptor pool is a list of messages; message types of fields are in it, as protobuf requires."
  },
  {
   "property": "C119",
   "status": "partial",
   "theorems": [
    "C119_select_partial",
    "C119_variables",
    "C119_library_refuted",
    "C119_refused_refuted",
    "C119_json_refuted"
   ],
   "note": "Proved for the masks of the builder itself, for accepted calls and for descriptor names of fields; refuted for the masks of libraries, for refused calls and for JSON names. Extensions and other type providers are left out."
  },
  {
   "property": "C120",
   "status": "partial",
   "theorems": [
    "C120_pieces",
    "C120_errors",
    "C120_first",
    "C120_all_partial",
    "C120_matches_exist",
    "C120_anchor_refuted"
   ],
   "note": "RE2 is a parameter: a search function whose matches lie in the text. All matches are proved for patterns that do not look at what is before; refuted for the others."
  },
  {
   "property": "C121",
   "status": "partial",
   "theorems": [
    "C121_all_ends",
    "C121_all",
    "C121_count_partial",
    "C121_enough_partial",
    "C121_anchor_refuted",
    "C121_empty_refuted",
    "C121_overflow_refuted"
   ],
   "note": "RE2 is a parameter and RE2::GlobalReplace is a reading of re2.cc. Proved for patterns that do not match the empty text and do not look at what is before; refuted for the others and for counts of 2^31 and more."
  },
  {
   "property": "C122",
   "status": "partial",
   "theorems": [
    "C122_replacement",
    "C122_no_internal",
    "C122_zero_refuted"
   ],
   "note": "RE2::CheckRewriteString and RE2::Rewrite are readings of re2.cc, whose source is not in the repository. Refuted for the count 0."
  },
  {
   "property": "C123",
   "status": "proved",
   "theorems": [
    "C123_key",
    "C123_history",
    "C123_refused"
   ],
   "note": "Expanders are opaque and never empty."
  },
  {
   "property": "C124",
   "status": "proved",
   "theorems": [
    "C124_build",
    "C124_libraries",
    "C124_rebuild"
   ],
   "note": "Configure functions of libraries add macros and stop at the first error; those that change options or add libraries are left out."
  },
  {
   "property": "C125",
   "status": "partial",
   "theorems": [
    "C125_reserved",
    "C125_call_partial",
    "C125_root",
    "C125_twice_refuted"
   ],
   "note": "Functions are eager; a call is resolved at planning by M_Namespace. Refuted where the container can be put before a resolved name again."
  },
  {
   "property": "C126",
   "status": "partial",
   "theorems": [
    "C126_total",
    "C126_name",
    "C126_receiver_partial",
    "C126_function",
    "C126_receiver_refuted",
    "C126_constant",
    "C126_global",
    "C126_method",
    "C126_method_found",
    "C126_status"
   ],
   "note": "Stated over the relation that C87 shows AstRewrite to compute. Duplicate ids are allowed except where the statement names ids. Refuted for variables whose reference does not change the name."
  },
  {
   "property": "C127",
   "status": "partial",
   "theorems": [
    "C127_text",
    "C127_distinct_partial",
    "C127_distinct_refuted"
   ],
   "note": "A type of types has at most one parameter. Refuted for enums, functions and names shared between kinds."
  },
  {
   "property": "C128",
   "status": "partial",
   "theorems": [
    "C128_table_partial",
    "C128_shared",
    "C128_overlap_refuted",
    "C128_dots_refuted"
   ],
   "note": "Critical sections are single steps. Proved where RegisterEnum overlaps with no other call and names of enumerators have no dots; refuted otherwise."
  },
  {
   "property": "C129",
   "status": "proved",
   "theorems": [
    "C129_accepts",
    "C129_consistent",
    "C129_subset"
   ],
   "note": "Signatures of overloads are given as data; error messages are left out; types of variables are compared by name as in the code."
  }
 ]
}