{
 "claims": [
  {
   "property": "C01",
   "status": "proved",
   "theorems": [
    "C01_failure_gives_back_the_input"
   ],
   "note": ""
  },
  {
   "property": "C02",
   "status": "proved",
   "theorems": [
    "C02_rest_is_a_tail",
    "C02_consumed_range_is_derived"
   ],
   "note": ""
  },
  {
   "property": "C03",
   "status": "proved",
   "theorems": [
    "C03_no_undefined_behaviour",
    "C03_only_the_input_is_read",
    "C03_foreign_span_refuted"
   ],
   "note": "No out-of-bounds access or other undefined behaviour; requires that no user function feeding a join returns spans of other storage, which is refuted otherwise."
  },
  {
   "property": "C04",
   "status": "proved",
   "theorems": [
    "C04_spans_lie_in_the_consumed_input",
    "C04_spans_are_ordered"
   ],
   "note": ""
  },
  {
   "property": "C05",
   "status": "partial",
   "theorems": [
    "C05_parse_implies_lookahead_partial",
    "C05_lookahead_implies_parse_partial",
    "C05_lookahead_answers_refuted"
   ],
   "note": "Full statement refuted (filters, joins over parsers that drop text from the middle, converting custom parsers); proved for every parser that parses none of these; where they are only looked at (ignored, void parts) they do no harm. Joins over parsers that drop text only at the front or the end are covered. C76 says what must have happened in a run whenever the two disagree, for all parsers."
  },
  {
   "property": "C06",
   "status": "proved",
   "theorems": [
    "C06_lookahead_runs_no_user_code",
    "C06_ignore_runs_no_user_code"
   ],
   "note": ""
  },
  {
   "property": "C07",
   "status": "proved",
   "theorems": [
    "C07_any_of",
    "C07_none_of",
    "C07_anything"
   ],
   "note": ""
  },
  {
   "property": "C08",
   "status": "proved",
   "theorems": [
    "C08_all_of"
   ],
   "note": ""
  },
  {
   "property": "C09",
   "status": "proved",
   "theorems": [
    "C09_choice_parse",
    "C09_choice_look"
   ],
   "note": ""
  },
  {
   "property": "C10",
   "status": "partial",
   "theorems": [
    "C10_choice_value_partial",
    "C10_choice_value_refuted",
    "C10_two_repeated_types_do_not_compile",
    "C10_conversions_agree",
    "C10_conversions_give_back",
    "C10_lands_total",
    "C10_lands_unique",
    "C10_lands_proper",
    "C10_conversion_typed",
    "C10_converted_value",
    "C10_conversions_compile",
    "C10_conversions_accepted",
    "C10_conversion_refuted"
   ],
   "note": "Refuted for choices where a void alternative or a repetition precedes the first occurrence of a repeated type: the value is lost, the program does not compile, or (if the types convert) the value is converted and stored in the alternative of another type; proved for all others."
  },
  {
   "property": "C11",
   "status": "proved",
   "theorems": [
    "C11_sequence_parse",
    "C11_sequence_look",
    "C11_every_slot_is_filled"
   ],
   "note": ""
  },
  {
   "property": "C12",
   "status": "partial",
   "theorems": [
    "C12_filter_in_sequence_partial",
    "C12_filter_in_sequence_refuted",
    "C12_filter_in_choice_partial",
    "C12_filter_in_choice_refuted"
   ],
   "note": "Refuted for filtered parts without a value, and in choices for those whose value is lost (C10): they are only looked at. Proved for all others, in sequences and choices."
  },
  {
   "property": "C13",
   "status": "proved",
   "theorems": [
    "C13_maybe_parse",
    "C13_maybe_look"
   ],
   "note": ""
  },
  {
   "property": "C14",
   "status": "proved",
   "theorems": [
    "C14_zero_or_more_parse",
    "C14_zero_or_more_look",
    "C14_one_or_more_parse",
    "C14_one_or_more_look"
   ],
   "note": ""
  },
  {
   "property": "C15",
   "status": "proved",
   "theorems": [
    "C15_exactly_parse",
    "C15_exactly_look"
   ],
   "note": ""
  },
  {
   "property": "C16",
   "status": "partial",
   "theorems": [
    "C16_delimit_parse_partial",
    "C16_delimit_look",
    "C16_delimit_void_partial",
    "C16_delimit_void_refuted"
   ],
   "note": "Proved for non-void element types in parse and for all in lookahead; refuted for void element types in parse, but proved for those whose elements parse nothing that rejects after success (C05)."
  },
  {
   "property": "C17",
   "status": "proved",
   "theorems": [
    "C17_delimit_parse",
    "C17_delimit_look"
   ],
   "note": ""
  },
  {
   "property": "C18",
   "status": "proved",
   "theorems": [
    "C18_ignore",
    "C18_ignore_has_no_value",
    "C18_ignore_adds_nothing"
   ],
   "note": ""
  },
  {
   "property": "C19",
   "status": "proved",
   "theorems": [
    "C19_complete"
   ],
   "note": ""
  },
  {
   "property": "C20",
   "status": "proved",
   "theorems": [
    "C20_join_success",
    "C20_join_failure",
    "C20_joined_elements"
   ],
   "note": "p as in C03: functions below the join hand back only spans they were given (local_parser). For other spans see C58."
  },
  {
   "property": "C21",
   "status": "proved",
   "theorems": [
    "C21_lossless_join",
    "C21_join_over_a_gap"
   ],
   "note": ""
  },
  {
   "property": "C22",
   "status": "proved",
   "theorems": [
    "C22_fast_path_is_general_join"
   ],
   "note": ""
  },
  {
   "property": "C23",
   "status": "proved",
   "theorems": [
    "C23_map",
    "C23_filter"
   ],
   "note": ""
  },
  {
   "property": "C24",
   "status": "proved",
   "theorems": [
    "C24_maybe_language",
    "C24_one_or_more_language",
    "C24_zero_or_more_language",
    "C24_maybe",
    "C24_one_or_more",
    "C24_zero_or_more",
    "C24_nested_repetition_never_returns"
   ],
   "note": "Where the unsimplified combination never returns (+~p, +*p, *~p, **p) this is shown too."
  },
  {
   "property": "C25",
   "status": "partial",
   "theorems": [
    "C25_or_is_ordered_choice",
    "C25_or_parse_partial",
    "C25_or_associative",
    "C25_or_idempotent",
    "C25_or_parse_refuted"
   ],
   "note": "Lookahead: full. Parse: refuted where flattening makes an alternative lose its index (see C10); proved for all other choices."
  },
  {
   "property": "C26",
   "status": "proved",
   "theorems": [
    "C26_then_is_sequence",
    "C26_flattening",
    "C26_then_associative",
    "C26_under_join"
   ],
   "note": "Operands without a value are looked at (see C12)."
  },
  {
   "property": "C27",
   "status": "proved",
   "theorems": [
    "C27_merging_is_union_of_accepted_sets",
    "C27_inexact_comparison_refuted"
   ],
   "note": "Requires that no input element equals two different literal elements; refuted otherwise."
  },
  {
   "property": "C28",
   "status": "proved",
   "theorems": [
    "C28_any_accepts_the_written_elements",
    "C28_none_accepts_all_others",
    "C28_same_elements_same_parser"
   ],
   "note": ""
  },
  {
   "property": "C29",
   "status": "proved",
   "theorems": [
    "C29_not_is_complement"
   ],
   "note": ""
  },
  {
   "property": "C30",
   "status": "partial",
   "theorems": [
    "C30_modifiers_associative",
    "C30_same_parser",
    "C30_composition_partial",
    "C30_any_bracketing",
    "C30_two_arguments",
    "C30_raw_delimit_refuted"
   ],
   "note": "Refuted for compositions that start with delimit or delimit_keep without a delimiter; proved for all others."
  },
  {
   "property": "C31",
   "status": "proved",
   "theorems": [
    "C31_substitutes",
    "C31_identity",
    "C31_no_name_left",
    "C31_other_names",
    "C31_one_after_the_other"
   ],
   "note": ""
  },
  {
   "property": "C36",
   "status": "proved",
   "theorems": [
    "C36_families_are_distinct",
    "C36_families_are_in_bounds",
    "C36_redundant_modifiers",
    "C36_idempotent",
    "C36_dropping_is_sound"
   ],
   "note": ""
  },
  {
   "property": "C32",
   "status": "proved",
   "theorems": [
    "C32_names_have_no_effect"
   ],
   "note": ""
  },
  {
   "property": "C33",
   "status": "proved",
   "theorems": [
    "C33_terminates",
    "C33_terminates_by_behaviour",
    "C33_empty_round_never_returns",
    "C33_empty_delimit_round_never_returns",
    "C33_left_recursion_never_returns",
    "C33_check"
   ],
   "note": ""
  },
  {
   "property": "C34",
   "status": "proved",
   "theorems": [
    "C34_value_has_the_advertised_type",
    "C34_lookahead_carries_no_value",
    "C34_compiled_code_meets_no_type_error"
   ],
   "note": ""
  },
  {
   "property": "C35",
   "status": "partial",
   "theorems": [
    "C35_custom_same_partial",
    "C35_custom_look",
    "C35_custom_elem_partial",
    "C35_custom_whole",
    "C35_custom_refuted"
   ],
   "note": "Refuted when result_type is constructible from the optional itself; proved for the two other conversions. What happens in the remaining case is C35_custom_whole."
  },
  {
   "property": "C37",
   "status": "proved",
   "theorems": [
    "C37_depends_only_on_the_elements",
    "C37_relative_positions"
   ],
   "note": "User code must treat moved spans alike (does not look at addresses)."
  },
  {
   "property": "C38",
   "status": "proved",
   "theorems": [
    "C38_lookahead_is_peg",
    "C38_lookahead_otherwise_diverges"
   ],
   "note": ""
  },
  {
   "property": "C43",
   "status": "proved",
   "theorems": [
    "C43_one_outcome",
    "C43_longer_runs_agree",
    "C43_returns_or_diverges"
   ],
   "note": ""
  },
  {
   "property": "C44",
   "status": "proved",
   "theorems": [
    "C44_or_epsilon",
    "C44_or_eps_never_fails",
    "C44_or_eps"
   ],
   "note": ""
  },
  {
   "property": "C47",
   "status": "proved",
   "theorems": [
    "C47_exceptions_are_users"
   ],
   "note": ""
  },
  {
   "property": "C39",
   "status": "proved",
   "theorems": [
    "C39_json_terminates",
    "C39_number_is_longest"
   ],
   "note": "Stated for every memory and for whatever the constructors of the result classes do; the only other outcome of the number parser is that the construction of number_type throws."
  },
  {
   "property": "C45",
   "status": "partial",
   "theorems": [
    "C45_sees_all_partial",
    "C45_const_array",
    "C45_unterminated",
    "C45_literal_constructor_unused",
    "C45_literal_iff",
    "C45_literal_refuted",
    "C45_unterminated_refuted"
   ],
   "note": "Full for views, spans, containers and non-const arrays. Refuted for const character arrays: they go through the const T* constructor and are cut at the first zero (undefined behaviour without one)."
  },
  {
   "property": "C46",
   "status": "partial",
   "theorems": [
    "C46_spans",
    "C46_others_partial",
    "C46_literal_prefix",
    "C46_literal_refuted"
   ],
   "note": "Full for two spans. Refuted for comparison with a literal containing a zero, which compares only the part before it."
  },
  {
   "property": "C40",
   "status": "proved",
   "theorems": [
    "C40_parser_terminates",
    "C40_values_are_trees",
    "C40_evaluate_is_safe"
   ],
   "note": "Whatever floating-point arithmetic does."
  },
  {
   "property": "C41",
   "status": "partial",
   "theorems": [
    "C41_number_value",
    "C41_without_exponent_partial",
    "C41_exact_partial",
    "C41_exponent_refuted",
    "C41_abort_refuted"
   ],
   "note": "Holds for literals without exponent. With an exponent the value is pow(value, exponent), not value times a power of ten (2e3 gives 8), and an exponent outside int terminates the program."
  },
  {
   "property": "C42",
   "status": "partial",
   "theorems": [
    "C42_print_partial",
    "C42_parsed_partial",
    "C42_depth_refuted"
   ],
   "note": "Vector accesses are always in bounds; the tab buffer is overrun exactly for trees higher than 1025 levels (nested brackets and negations deeper than 204; C56_prints_outline)."
  },
  {
   "property": "C48",
   "status": "proved",
   "theorems": [
    "C48_value_of_text",
    "C48_value_of_parsed",
    "C48_unambiguous"
   ],
   "note": "Whatever floating-point arithmetic does; literals as in C41 (number_value). A negation extends as far as possible, -1+2 is -(1+2)."
  },
  {
   "property": "C49",
   "status": "proved",
   "theorems": [
    "C49_accepts_documented_grammar",
    "C49_lookahead_accepts_documented_grammar",
    "C49_refuses_the_rest"
   ],
   "note": ""
  },
  {
   "property": "C50",
   "status": "partial",
   "theorems": [
    "C50_lookahead_is_longest",
    "C50_parse_is_longest",
    "C50_accepts_rfc",
    "C50_accepts_only_partial",
    "C50_rfc_is_printable",
    "C50_rfc_only_refuted"
   ],
   "note": "Proved with one deviation from RFC 8259, which is exact: raw control characters below U+0020 are accepted within strings (json.cpp:44)."
  },
  {
   "property": "C51",
   "status": "proved",
   "theorems": [
    "C51_delivers_the_document",
    "C51_delivers_the_object",
    "C51_delivers_the_array",
    "C51_value_of_text",
    "C51_unambiguous"
   ],
   "note": "A constructor that throws ends the parse with its exception."
  },
  {
   "property": "C52",
   "status": "proved",
   "theorems": [
    "C52_literal",
    "C52_concatenation",
    "C52_equality",
    "C52_contains",
    "C52_is_sorted",
    "C52_normalised",
    "C52_merged",
    "C52_in_bounds",
    "C52_refines"
   ],
   "note": ""
  },
  {
   "property": "C53",
   "status": "proved",
   "theorems": [
    "C53_depth_is_linear",
    "C53_bound",
    "C53_same_program",
    "C53_json",
    "C53_algebraic"
   ],
   "note": ""
  },
  {
   "property": "C54",
   "status": "partial",
   "theorems": [
    "C54_bounded_partial",
    "C54_bounded_by_type_partial",
    "C54_json_depth",
    "C54_bounded_stack_refuted"
   ],
   "note": "Proved for parsers that do not reach themselves through custom parsers, with the depth of their type. Refuted for recursive ones: json.cpp needs more nested calls than any bound on texts of nested brackets that RFC 8259 allows."
  },
  {
   "property": "C55",
   "status": "partial",
   "theorems": [
    "C55_counted",
    "C55_polynomial_partial",
    "C55_polynomial_by_type",
    "C55_json_linear",
    "C55_algebraic_exponential",
    "C55_polynomial_refuted",
    "C55_algebraic_polynomial_refuted",
    "C55_algebraic_expressions_quadratic",
    "C55_algebraic_quadratic_reached"
   ],
   "note": "Proved for parsers that do not reach themselves through custom parsers, with the height of the type as degree; the JSON example is linear. Refuted for recursive ones: the algebraic example makes at least 2^n calls on the 4n characters -1+(-1+(... , a text that is no expression; on expressions it makes at most quadratically many, and some take that many. Rounds of the loops of specialised join are not counted (C53 bounds them)."
  },
  {
   "property": "C56",
   "status": "proved",
   "theorems": [
    "C56_prints_outline",
    "C56_outline_determines_expression",
    "C56_output_determines_input"
   ],
   "note": "Outline given as a function of the expression, independent of the printed objects. std::cout taken as the sequence of characters written to it."
  },
  {
   "property": "C57",
   "status": "proved",
   "theorems": [
    "C57_choice",
    "C57_sequence",
    "C57_or",
    "C57_then",
    "C57_unary",
    "C57_not",
    "C57_percent",
    "C57_join",
    "C57_substitute",
    "C57_unambiguous",
    "C57_deduction"
   ],
   "note": "The rules of deduction and partial ordering are modelled for the forms that occur (Overload.v); operands of one element type, as in the rest of the model. unwrap_if_single, whose overloads differ only in a trailing pack, is represented by its outcome; filter.h is C60."
  },
  {
   "property": "C58",
   "status": "proved",
   "theorems": [
    "C58_defined_calls_agree",
    "C58_same_on_every_build",
    "C58_constant_join",
    "C58_foreign_span_refuted"
   ],
   "note": "The last one shows that the condition on functions below a join is needed: with a span of another object the builds differ."
  },
  {
   "property": "C59",
   "status": "proved",
   "theorems": [
    "C59_same",
    "C59_no_use_after_move",
    "C59_lookahead",
    "C59_copies",
    "C59_defaults",
    "C59_no_default_needed",
    "C59_default_first",
    "C59_move_spends",
    "C59_build_spends",
    "C59_map_uses",
    "C59_filter_uses",
    "C59_maybe_uses",
    "C59_repetition_uses"
   ],
   "note": "Objects.v: every value lives in a cell that a move empties; each use is logged. Moves that the language elides are not counted; containers growing (which move or copy their elements) are not modelled."
  },
  {
   "property": "C60",
   "status": "proved",
   "theorems": [
    "C60_sequence",
    "C60_choice",
    "C60_empty"
   ],
   "note": "FilterTemplates.v transcribes filter.h; which specialisation is used for one type (the one without a pack) is taken as given. The indices include the -1 that index_lookup returns by mistake for some lists, as the code does. Depth counts filter_with_index/filter_deduplicate_with_index, not index_lookup. unwrap_if_single stays as in Compound.v."
  },
  {
   "property": "C61",
   "status": "proved",
   "theorems": [
    "C61_one_value_type",
    "C61_value_type",
    "C61_or",
    "C61_then",
    "C61_unary",
    "C61_modifiers_keep",
    "C61_delimit",
    "C61_same_as_untyped",
    "C61_input_fits"
   ],
   "note": "ValueTypes.v repeats the parsers, operators and modifiers with value types and the constraints on them; which overload is best is taken from C57."
  },
  {
   "property": "C62",
   "status": "partial",
   "theorems": [
    "C62_one_character_type_partial",
    "C62_any_character_type_partial",
    "C62_other_character_type_refuted"
   ],
   "note": "Refuted when a name around the named part is written in another character type: neither == nor != of the two names is valid, so the primary template is used and the part is passed over without a diagnostic. Proved when names are in one character type, and in general for the parts not inside such a name."
  },
  {
   "property": "C63",
   "status": "proved",
   "theorems": [
    "C63_own_assertions",
    "C63_exception",
    "C63_one_course"
   ],
   "note": ""
  },
  {
   "property": "C64",
   "status": "partial",
   "theorems": [
    "C64_registered_partial",
    "C64_builds_but_terminated_refuted"
   ],
   "note": "Refuted by a TEST whose fixture name is declared nowhere but has the hash of a declared one: it builds, and the program is terminated before main. Proved for programs in which each TEST names a fixture declared in its translation unit."
  },
  {
   "property": "C65",
   "status": "partial",
   "theorems": [
    "C65_one_character_partial",
    "C65_common_ending_partial",
    "C65_distinct_refuted",
    "C65_same_name_refuted"
   ],
   "note": "Refuted: \"ab\" and \"b`\" collide, so do all tests named as their fixture and any two with the names exchanged; these programs do not build. Proved: names that differ in one character never collide; a common ending does not matter."
  },
  {
   "property": "C66",
   "status": "partial",
   "theorems": [
    "C66_exit_partial",
    "C66_report",
    "C66_wrong_arguments",
    "C66_static",
    "C66_missing_test_refuted"
   ],
   "note": "Refuted for `run <fixture> <test>` with a test that does not exist: it prints an error, then that all tests passed, and returns EXIT_SUCCESS. Everything else is proved."
  },
  {
   "property": "C67",
   "status": "proved",
   "theorems": [
    "C67_split",
    "C67_commands",
    "C67_ctest"
   ],
   "note": ""
  },
  {
   "property": "C68",
   "status": "proved",
   "theorems": [
    "C68_named",
    "C68_sound",
    "C68_movable_classes",
    "C68_only_moved",
    "C68_default_always",
    "C68_choice_order_refuted",
    "C68_assignment_refuted",
    "C68_exact_maybe",
    "C68_exact_exactly",
    "C68_exact_repetition",
    "C68_exact_delimit",
    "C68_exact_delimiter",
    "C68_exact_complete",
    "C68_exact_sequence",
    "C68_exact_tuple",
    "C68_exact_choice",
    "C68_exact_filter",
    "C68_exact_map"
   ],
   "note": "The lists (Needs.v) follow the bodies of parse; what optional, vector, tuple, array, variant and pair offer and ask for is taken from the C++20 standard (vector::insert of an rvalue asks for move assignment). Destructors, and the elements a vector relocates, are as in C59."
  },
  {
   "property": "C69",
   "status": "proved",
   "theorems": [
    "C69_inserts",
    "C69_no_allocation",
    "C69_repetition_inserts",
    "C69_lean_join",
    "C69_not_called",
    "C69_vector_types",
    "C69_values",
    "C69_transient_refuted"
   ],
   "note": "Allocation is an operation of the object-level model (Insert: a new element of a vector; copies); what std::vector allocates, and when it grows its buffer, is not modelled, so one Insert may or may not allocate. C69_transient_refuted shows that a value without vectors does not mean a run without insertions."
  },
  {
   "property": "C70",
   "status": "proved",
   "theorems": [
    "C70_exchange",
    "C70_exchange_lookahead",
    "C70_grammar",
    "C70_rule",
    "C70_contexts",
    "C70_substitution",
    "C70_lookahead_refuted"
   ],
   "note": "Agreement is on calls that return; exceptions, undefined behaviour and divergence are not compared, and that the exchanged program compiles is asked for (lookahead) or implied by its having results. C70_lookahead_refuted: lookahead agreement does not give parse agreement."
  },
  {
   "property": "C71",
   "status": "proved",
   "theorems": [
    "C71_left_factor",
    "C71_right_factor_one_way",
    "C71_dead_alternative",
    "C71_repeated_alternative",
    "C71_after_certain",
    "C71_shadowed_literal",
    "C71_literal_split",
    "C71_set_split",
    "C71_swap",
    "C71_unit_left",
    "C71_unit_right",
    "C71_star_unrolled",
    "C71_plus_unrolled",
    "C71_maybe_choice",
    "C71_exactly_one",
    "C71_exactly_sum",
    "C71_delimit_unrolled",
    "C71_complete_last",
    "C71_complete_choice_one_way",
    "C71_ignored",
    "C71_named",
    "C71_complete_twice",
    "C71_ignore_twice",
    "C71_ignore_complete",
    "C71_ignore_sequence",
    "C71_right_factor_refuted",
    "C71_complete_choice_refuted",
    "C71_swap_refuted"
   ],
   "note": "The three _refuted theorems are the witnesses for the laws the statement says do not hold."
  },
  {
   "property": "C72",
   "status": "proved",
   "theorems": [
    "C72_exact",
    "C72_literal",
    "C72_values",
    "C72_spelled",
    "C72_copied",
    "C72_count",
    "C72_first",
    "C72_array",
    "C72_deduced",
    "C72_characters_refuted",
    "C72_mixed_refuted",
    "C72_order_refuted"
   ],
   "note": "C72_exact is an equivalence with an inductive specification. The _refuted theorems are the witnesses for the last sentence of the statement."
  },
  {
   "property": "C73",
   "status": "proved",
   "theorems": [
    "C73_lookahead",
    "C73_ignored",
    "C73_answers_without_reading",
    "C73_state",
    "C73_exception",
    "C73_no_calls",
    "C73_deterministic",
    "C73_safe",
    "C73_ends",
    "C73_no_rollback_refuted",
    "C73_repeat_refuted"
   ],
   "note": "Stateful.v models every parse and lookahead over an arbitrary type of states. The _refuted theorems are the witnesses for the last sentence of the statement."
  },
  {
   "property": "C74",
   "status": "proved",
   "theorems": [
    "C74_value",
    "C74_missing",
    "C74_error",
    "C74_call",
    "C74_inner",
    "C74_accepted",
    "C74_same",
    "C74_refused",
    "C74_fails",
    "C74_refusal_refuted",
    "C74_pointer_refuted",
    "C74_const_range_refuted"
   ],
   "note": "The _refuted theorems are the witnesses for the last sentence of the statement. No volatile types, arrays of unknown bound or function types."
  },
  {
   "property": "C75",
   "status": "proved",
   "theorems": [
    "C75_sound",
    "C75_exact",
    "C75_parse_exact",
    "C75_unique",
    "C75_language",
    "C75_parse_language",
    "C75_refused",
    "C75_ll1",
    "C75_json_number",
    "C75_order_refuted",
    "C75_greed_refuted",
    "C75_whole_refuted"
   ],
   "note": "The _refuted theorems are the witnesses for the last sentence of the statement."
  },
  {
   "property": "C76",
   "status": "proved",
   "theorems": [
    "C76_blame",
    "C76_filters",
    "C76_all_accepted",
    "C76_only_stricter",
    "C76_converse_refuted",
    "C76_stricter_refuted"
   ],
   "note": "The _refuted theorems are the witnesses for the last sentence of the statement."
  },
  {
   "property": "C77",
   "status": "proved",
   "theorems": [
    "C77_no_tie",
    "C77_same",
    "C77_whole",
    "C77_elem",
    "C77_error",
    "C77_bool",
    "C77_customs",
    "C77_keeps_verdict",
    "C77_never_fails"
   ],
   "note": "What is constructible or convertible is a given relation. Constructors of std::optional as in the C++20 standard, with and without LWG 3836."
  },
  {
   "property": "C78",
   "status": "proved",
   "theorems": [
    "C78_algebraic_ends",
    "C78_algebraic_returns",
    "C78_algebraic_undefined",
    "C78_algebraic_as_written",
    "C78_json",
    "C78_json_as_written"
   ],
   "note": "How a double is written to the stream is left open."
  },
  {
   "property": "C79",
   "status": "proved",
   "theorems": [
    "C79_final",
    "C79_prefix",
    "C79_differs",
    "C79_halts",
    "C79_every_outcome",
    "C79_check",
    "C79_end_matters"
   ],
   "note": ""
  },
  {
   "property": "C80",
   "status": "proved",
   "theorems": [
    "C80_run_time",
    "C80_constant",
    "C80_owner",
    "C80_views",
    "C80_parse",
    "C80_conservative"
   ],
   "note": "Which classes convert and to what is given; owners are assumed to have storage of their own, not shared with non-empty views in the same value."
  },
  {
   "property": "C81",
   "status": "proved",
   "theorems": [
    "C81_answers_without_reading",
    "C81_deterministic",
    "C81_safe",
    "C81_ends",
    "C81_state",
    "C81_exception",
    "C81_lookahead",
    "C81_any_of",
    "C81_none_of",
    "C81_all_of",
    "C81_too_short",
    "C81_special_join",
    "C81_same_comparisons",
    "C81_only_these",
    "C81_lookahead_pure_refuted",
    "C81_lookahead_then_parse_refuted",
    "C81_no_rollback_refuted"
   ],
   "note": "The _refuted theorems are the witnesses for the last sentence of the statement."
  },
  {
   "property": "C82",
   "status": "proved",
   "theorems": [
    "C82_exception",
    "C82_undefined",
    "C82_outcomes",
    "C82_one_way"
   ],
   "note": ""
  },
  {
   "property": "C83",
   "status": "proved",
   "theorems": [
    "C83_resolve",
    "C83_one_type",
    "C83_depth",
    "C83_cycle",
    "C83_written",
    "C83_exact",
    "C83_sound",
    "C83_not_found",
    "C83_examples"
   ],
   "note": ""
  },
  {
   "property": "C84",
   "status": "proved",
   "theorems": [
    "C84_final",
    "C84_json",
    "C84_json_value",
    "C84_json_number",
    "C84_algebraic_number",
    "C84_number_open"
   ],
   "note": "The test is sufficient, not necessary."
  },
  {
   "property": "C85",
   "status": "proved",
   "theorems": [
    "C85_shorter",
    "C85_consumed",
    "C85_pieces",
    "C85_not_early",
    "C85_json_pieces",
    "C85_json_not_early",
    "C85_json_stream",
    "C85_json_value",
    "C85_test_matters"
   ],
   "note": "For parsers that pass the test of C84, which is sufficient, not necessary."
  }
 ]
}