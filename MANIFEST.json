{
 "claims": [
  {
   "property": "C01",
   "status": "proved",
   "theorems": [
    "C01_accepts_exactly_the_peg_language",
    "C01_rejects_exactly_the_rest",
    "C01_terminates_exactly_when_peg_does",
    "C01_result_independent_of_fuel",
    "C01_semantics_is_deterministic"
   ],
   "note": "ASCII texts and sane repetition bounds, as the property says; termination of parse coincides with existence of a PEG result."
  },
  {
   "property": "C02",
   "status": "proved",
   "theorems": [
    "C02_ast_is_the_unique_derivation_tree"
   ],
   "note": ""
  },
  {
   "property": "C03",
   "status": "proved",
   "theorems": [
    "C03_leaves_spell_the_text",
    "C03_with_eof_refuted"
   ],
   "note": "Proved without the EOF atom; the clause about the EOF atom is the _refuted witness."
  },
  {
   "property": "C04",
   "status": "proved",
   "theorems": [
    "C04_error_position_coherent"
   ],
   "note": ""
  },
  {
   "property": "C05",
   "status": "proved",
   "theorems": [
    "C05_no_panic_on_ascii"
   ],
   "note": ""
  },
  {
   "property": "C06",
   "status": "proved",
   "theorems": [
    "C06_non_ascii_never_accepted",
    "C06_peg_language_non_ascii_refuted",
    "C06_no_panic_non_ascii_refuted"
   ],
   "note": "The two _refuted theorems are the witnesses the property mentions."
  },
  {
   "property": "C07",
   "status": "proved",
   "theorems": [
    "C07_error_message_surfaces"
   ],
   "note": ""
  },
  {
   "property": "C08",
   "status": "proved",
   "theorems": [
    "C08_missing_main",
    "C08_critical_errors_have_a_cause"
   ],
   "note": ""
  },
  {
   "property": "C09",
   "status": "proved",
   "theorems": [
    "C09_not_leaves_no_trace",
    "C09_not_in_peg_terms"
   ],
   "note": ""
  },
  {
   "property": "C10",
   "status": "proved",
   "theorems": [
    "C10_first_alternative_that_does_not_fail",
    "C10_later_alternatives_irrelevant"
   ],
   "note": ""
  },
  {
   "property": "C11",
   "status": "proved",
   "theorems": [
    "C11_choice_reports_furthest_failure"
   ],
   "note": ""
  },
  {
   "property": "C12",
   "status": "proved",
   "theorems": [
    "C12_repetition_respects_bounds"
   ],
   "note": ""
  },
  {
   "property": "C13",
   "status": "proved",
   "theorems": [
    "C13_max_respected_refuted",
    "C13_min_respected_refuted",
    "C13_exact_law",
    "C13_sane_bounds_unchanged"
   ],
   "note": "The property is false of the code; refuted by witnesses, and the exact law (degenerate bounds behave as normalised ones) is proved."
  },
  {
   "property": "C14",
   "status": "proved",
   "theorems": [
    "C14_well_formed_rules_terminate",
    "C14_well_formed_rules_decide_every_text",
    "C14_static_check_is_exact"
   ],
   "note": ""
  },
  {
   "property": "C15",
   "status": "proved",
   "theorems": [
    "C15_left_recursion_diverges",
    "C15_left_recursive_main_diverges",
    "C15_empty_repetition_diverges"
   ],
   "note": "Divergence is: no amount of fuel gives a result."
  },
  {
   "property": "C16",
   "status": "proved",
   "theorems": [
    "C16_terminates_on_every_text",
    "C16_never_panics_on_ascii_text",
    "C16_ok_or_error"
   ],
   "note": ""
  },
  {
   "property": "C17",
   "status": "proved",
   "theorems": [
    "C17_debug_agrees",
    "C17_trace",
    "C17_two_entry_points"
   ],
   "note": ""
  },
  {
   "property": "C18",
   "status": "proved",
   "theorems": [
    "C18_only_reachable_rules_matter"
   ],
   "note": ""
  },
  {
   "property": "C19",
   "status": "proved",
   "theorems": [
    "C19_add",
    "C19_merge",
    "C19_merge_order_irrelevant",
    "C19_rules_macro"
   ],
   "note": ""
  },
  {
   "property": "C20",
   "status": "proved",
   "theorems": [
    "C20_leftover_input_is_reported"
   ],
   "note": ""
  },
  {
   "property": "C21",
   "status": "proved",
   "theorems": [
    "C21_and_associative",
    "C21_or_associative",
    "C21_and_single",
    "C21_or_single",
    "C21_one_or_more",
    "C21_optional_is_choice",
    "C21_double_negation"
   ],
   "note": ""
  },
  {
   "property": "C22",
   "status": "proved",
   "theorems": [
    "C22_compact_merges_maximal_runs",
    "C22_compact_on_leaves",
    "C22_compact_no_adjacent_vals",
    "C22_compact_preserves_text",
    "C22_compact_idempotent"
   ],
   "note": ""
  },
  {
   "property": "C23",
   "status": "proved",
   "theorems": [
    "C23_prune_removes_exactly_the_named_subtrees",
    "C23_prune_on_leaves",
    "C23_prune_leaves_no_named_node",
    "C23_prune_on_token_streams",
    "C23_prune_idempotent",
    "C23_prune_composes",
    "C23_prune_only_depends_on_the_set_of_names"
   ],
   "note": ""
  },
  {
   "property": "C24",
   "status": "proved",
   "theorems": [
    "C24_pass_through_splices_unlisted_rules",
    "C24_pass_through_on_leaves",
    "C24_pass_through_keeps_only_listed_rules",
    "C24_pass_through_keeps_every_leaf",
    "C24_pass_through_filters_tokens",
    "C24_pass_through_idempotent"
   ],
   "note": ""
  },
  {
   "property": "C25",
   "status": "proved",
   "theorems": [
    "C25_flatten_balanced",
    "C25_flatten_reads_back",
    "C25_balanced_lists_are_flattenings",
    "C25_flatten_equal_iff_trees_equal",
    "C25_flatten_injective_on_parse_results",
    "C25_flatten_keeps_text",
    "C25_flatten_with_eof_refuted"
   ],
   "note": ""
  },
  {
   "property": "C26",
   "status": "proved",
   "theorems": [
    "C26_split_first_nodes",
    "C26_consume_val",
    "C26_consume_this_value",
    "C26_peek_first_node",
    "C26_get_node_val",
    "C26_get_nodename_and_nodes",
    "C26_get_nodes_unique_val",
    "C26_consume_node_get_subnodes",
    "C26_check_empty_nodes",
    "C26_flat_split_first_nodes",
    "C26_flat_consume_start",
    "C26_flat_consume_end",
    "C26_flat_peek_first_node",
    "C26_flat_get_node_val",
    "C26_flat_consume_this_value",
    "C26_flat_get_nodename",
    "C26_flat_consume_val",
    "C26_wrong_name_is_reported",
    "C26_empty_slices_are_reported",
    "C26_wrong_kinds_are_reported",
    "C26_wrong_kinds_of_rules_are_reported",
    "C26_wrong_counts_are_reported",
    "C26_other_values_are_reported_as_missing",
    "C26_wrong_kinds_of_tokens_are_reported"
   ],
   "note": ""
  },
  {
   "property": "C27",
   "status": "proved",
   "theorems": [
    "C27_grammar_texts_are_read",
    "C27_only_grammar_texts_are_read",
    "C27_other_texts_are_errors",
    "C27_texts_are_unambiguous",
    "C27_print_then_read",
    "C27_print_then_read_expression"
   ],
   "note": "Exact in both directions: rules_from_peg returns Ok on exactly the ASCII texts of SpecSyntax.grammar_text, with exactly the denoted bindings; print_grammar gives a text of every expressible grammar."
  },
  {
   "property": "C28",
   "status": "proved",
   "theorems": [
    "C28_layout_does_not_matter",
    "C28_blanks_around_are_ignored"
   ],
   "note": ""
  },
  {
   "property": "C29",
   "status": "proved",
   "theorems": [
    "C29_accepted_texts_yield_rules_refuted",
    "C29_accepted_texts_yield_rules_without_defect"
   ],
   "note": "The unrestricted claim is false of the code (refuted by the two witnesses the property names); the exact criterion is proved."
  },
  {
   "property": "C30",
   "status": "proved",
   "theorems": [
    "C30_rules_are_plain",
    "C30_rules_are_sane"
   ],
   "note": ""
  },
  {
   "property": "C31",
   "status": "proved",
   "theorems": [
    "C31_double_quoted_literals",
    "C31_double_quoted_literals_express_everything",
    "C31_single_quoted_literals",
    "C31_single_quoted_literals_without_backslash",
    "C31_single_quoted_literals_verbatim_refuted"
   ],
   "note": "The verbatim clause is false for backslashes (refuted), the exact law for single-quoted literals is proved."
  },
  {
   "property": "C32",
   "status": "proved",
   "theorems": [
    "C32_the_winning_definition",
    "C32_modules_are_transparent",
    "C32_bound_iff_defined"
   ],
   "note": ""
  },
  {
   "property": "C33",
   "status": "proved",
   "theorems": [
    "C33_generated_code_reads_back",
    "C33_reading_is_unique",
    "C33_codable_is_exact",
    "C33_literal_value",
    "C33_text_to_code",
    "C33_backslash_refuted",
    "C33_unreadable_refuted"
   ],
   "note": "Restricted as the property says to codable rule sets, and the restriction is exact: these are precisely the rule sets read back unchanged. The _refuted theorems are the witnesses the property names."
  },
  {
   "property": "C34",
   "status": "proved",
   "theorems": [
    "C34_bootstrap",
    "C34_rules_differ_exactly",
    "C34_program_prints_the_built_in_rules"
   ],
   "note": "Closed statement about the crate's own text, by kernel computation; all iteration orders."
  },
  {
   "property": "C35",
   "status": "proved",
   "theorems": [
    "C35_nesting_is_linear_in_the_text",
    "C35_no_fixed_stack_is_enough",
    "C35_depth_is_linear_in_the_text",
    "C35_depth_factor"
   ],
   "note": "Upper bound for the fuel (calls plus loop turns) and for the nesting of calls alone, and a matching lower bound for certain rules."
  },
  {
   "property": "C36",
   "status": "proved",
   "theorems": [
    "C36_display",
    "C36_errors_name_the_open_constructs",
    "C36_errors_of_texts"
   ],
   "note": "For all token lists: the constructs named are those open where the consumer stopped, plus possibly the expected one."
  },
  {
   "property": "C37",
   "status": "proved",
   "theorems": [
    "C37_text_without_line_break",
    "C37_text_without_equals",
    "C37_how_accepted_texts_end",
    "C37_last_line_without_a_break"
   ],
   "note": ""
  },
  {
   "property": "C38",
   "status": "proved",
   "theorems": [
    "C38_no_eof_nodes"
   ],
   "note": ""
  },
  {
   "property": "C39",
   "status": "proved",
   "theorems": [
    "C39_outcome_depends_on_rest_only"
   ],
   "note": ""
  },
  {
   "property": "C40",
   "status": "proved",
   "theorems": [
    "C40_consumption_is_monotone"
   ],
   "note": ""
  },
  {
   "property": "C41",
   "status": "proved",
   "theorems": [
    "C41_parse_returns_what_the_reporting_semantics_says",
    "C41_results_are_exactly_the_answers",
    "C41_reports_are_unique",
    "C41_reports_refine_matching",
    "C41_every_outcome_has_a_report"
   ],
   "note": ""
  },
  {
   "property": "C42",
   "status": "proved",
   "theorems": [
    "C42_errors_are_located",
    "C42_syntax_errors_are_those_of_parse"
   ],
   "note": ""
  },
  {
   "property": "C43",
   "status": "proved",
   "theorems": [
    "C43_aborts_are_unbalanced_parentheses"
   ],
   "note": ""
  },
  {
   "property": "C44",
   "status": "proved",
   "theorems": [
    "C44_parse_is_determined",
    "C44_parse_is_determined_sane",
    "C44_one_answer",
    "C44_panic_is_a_cut",
    "C44_ascii_cuts"
   ],
   "note": "No hypothesis on text or rules; degenerate bounds through norm_rules, whose meaning is C13."
  },
  {
   "property": "C45",
   "status": "proved",
   "theorems": [
    "C45_compact_absorbs_before_prune",
    "C45_compact_absorbs_before_pass_through",
    "C45_pass_through_composes",
    "C45_prune_after_pass_through",
    "C45_prune_and_pass_through_commute_exactly_when",
    "C45_prune_too_late",
    "C45_pipeline",
    "C45_prune_after_compact_refuted",
    "C45_pass_through_after_compact_refuted"
   ],
   "note": "The two _refuted theorems are the witnesses the property names (compact must come last)."
  },
  {
   "property": "C46",
   "status": "proved",
   "theorems": [
    "C46_renaming_only_renames",
    "C46_rename_everything",
    "C46_same_rules_can_be_merged",
    "C46_capture_refuted"
   ],
   "note": "Same fuel on both sides, so divergence is covered too; C46_capture_refuted is the witness for the side condition."
  },
  {
   "property": "C47",
   "status": "proved",
   "theorems": [
    "C47_refactoring_is_sound",
    "C47_refactoring_to_well_formed_rules_is_exact",
    "C47_termination_refuted",
    "C47_equivalent_parts_are_interchangeable",
    "C47_factor_out_a_common_start",
    "C47_drop_a_repeated_alternative",
    "C47_drop_what_is_never_tried",
    "C47_exchange_alternatives_that_exclude_each_other",
    "C47_exchange_alternatives_with_different_first_chars",
    "C47_write_out_a_needed_turn",
    "C47_write_out_an_optional_turn",
    "C47_factor_out_a_common_end_refuted",
    "C47_equivalence_is_a_congruence"
   ],
   "note": "C47_termination_refuted is the witness that soundness cannot be completeness without well-formedness; C47_factor_out_a_common_end_refuted shows a tempting rewriting that is wrong."
  },
  {
   "property": "C48",
   "status": "proved",
   "theorems": [
    "C48_the_text_determines_the_parser",
    "C48_language_of_a_grammar_text",
    "C48_tree_of_a_grammar_text",
    "C48_well_formed_texts_always_answer",
    "C48_print_read_parse"
   ],
   "note": "Composes C27 and C44; no hypothesis on the rules, they come from the text."
  },
  {
   "property": "C49",
   "status": "proved",
   "theorems": [
    "C49_concatenation",
    "C49_disjoint_files",
    "C49_order_of_definitions",
    "C49_order_refuted"
   ],
   "note": "C49_order_refuted is the witness that order matters between definitions of one name."
  },
  {
   "property": "C50",
   "status": "proved",
   "theorems": [
    "C50_every_text_has_a_normal_form",
    "C50_printable_is_exact",
    "C50_save_and_load",
    "C50_loaded_rules_can_be_saved",
    "C50_savable_is_exact"
   ],
   "note": "Exact: savable rule sets are those some text denotes."
  },
  {
   "property": "C51",
   "status": "proved",
   "theorems": [
    "C51_parser_errors",
    "C51_ast_errors",
    "C51_trees",
    "C51_tokens",
    "C51_expressions",
    "C51_rules",
    "C51_syntax_errors",
    "C51_chains_refuted",
    "C51_both_outputs_show_the_same",
    "C51_pretty_trees",
    "C51_pretty_rules",
    "C51_pretty_errors"
   ],
   "note": "C51_chains_refuted is the witness the property names. Debug escapes of unprintable non-ASCII chars are simplified (ModelDebug)."
  },
  {
   "property": "C52",
   "status": "proved",
   "theorems": [
    "C52_calls_are_well_defined",
    "C52_at_most_exponential",
    "C52_exponential_for_some_rules"
   ],
   "note": "Cost is the number of calls of parse_expr, defined in ModelCost along the control flow of the model."
  },
  {
   "property": "C53",
   "status": "proved",
   "theorems": [
    "C53_trees_are_linear",
    "C53_tokens_are_linear",
    "C53_traces_are_linear"
   ],
   "note": ""
  },
  {
   "property": "C54",
   "status": "proved",
   "theorems": [
    "C54_reading_a_grammar_is_quadratic",
    "C54_quadratic_for_some_grammars"
   ],
   "note": "Calls of parse_expr while the text is parsed; the walk over the resulting tokens is C87 (linear)."
  },
  {
   "property": "C55",
   "status": "proved",
   "theorems": [
    "C55_rewriting_is_sound",
    "C55_rewriting_to_well_formed_rules_is_exact",
    "C55_same_language_is_a_congruence",
    "C55_equivalent_expressions_have_the_same_language",
    "C55_inlining",
    "C55_recursion_is_plus",
    "C55_recursion_is_list",
    "C55_drop_a_covered_alternative",
    "C55_longer_literals_are_covered",
    "C55_consume_till",
    "C55_matching_brackets",
    "C55_confused_brackets_refuted",
    "C55_order_matters_refuted"
   ],
   "note": "C55_confused_brackets_refuted and C55_order_matters_refuted are the limits the property names."
  },
  {
   "property": "C56",
   "status": "proved",
   "theorems": [
    "C56_basic_example",
    "C56_example2",
    "C56_parentheses_accepted",
    "C56_parentheses_message",
    "C56_parentheses_rejected",
    "C56_calculator_accepted",
    "C56_calculator_rejected",
    "C56_calculator_unambiguous",
    "C56_calculator_tidied",
    "C56_comments",
    "C56_comments_as_written",
    "C56_line_comments_end_at_newline_refuted"
   ],
   "note": "C56_line_comments_end_at_newline_refuted: the README grammar for comments, as written, differs from what the README says."
  },
  {
   "property": "C57",
   "status": "proved",
   "theorems": [
    "C57_expressions_are_linear",
    "C57_open_parentheses_are_exponential",
    "C57_one_alternative_is_redundant",
    "C57_linear_without_it"
   ],
   "note": ""
  },
  {
   "property": "C58",
   "status": "proved",
   "theorems": [
    "C58_hangs_exactly_when_it_runs_in_a_circle",
    "C58_returning_parses_nest_linearly",
    "C58_returning_parses_are_at_most_exponential",
    "C58_results_come_within_the_limit",
    "C58_beyond_the_limit_it_hangs"
   ],
   "note": ""
  },
  {
   "property": "C59",
   "status": "proved",
   "theorems": [
    "C59_building_a_class",
    "C59_both_macro_forms",
    "C59_a_class_accepts_its_members",
    "C59_same_members",
    "C59_union",
    "C59_complement",
    "C59_difference",
    "C59_single_chars",
    "C59_ranges",
    "C59_building_a_repetition"
   ],
   "note": ""
  },
  {
   "property": "C60",
   "status": "proved",
   "theorems": [
    "C60_errors_depend_on_what_was_looked_at",
    "C60_hanging_depends_on_what_was_looked_at",
    "C60_it_looks_no_further",
    "C60_accepted_texts_are_looked_at",
    "C60_accepted_without_looking_for_more",
    "C60_the_reported_place_is_how_far_it_looked_refuted"
   ],
   "note": "C60_the_reported_place_is_how_far_it_looked_refuted is the limit the property names."
  },
  {
   "property": "C61",
   "status": "proved",
   "theorems": [
    "C61_accepted_texts_are_generated",
    "C61_predictive_grammars_mean_bnf",
    "C61_predictive_grammars_reject_the_rest",
    "C61_predictive_grammars_are_unambiguous",
    "C61_order_of_alternatives_is_irrelevant",
    "C61_grammars_mean_bnf_refuted"
   ],
   "note": "C61_grammars_mean_bnf_refuted is the limit the property names. predictive_check and solid_check are sound computable checks of the two hypotheses, given tables for the rules."
  },
  {
   "property": "C62",
   "status": "proved",
   "theorems": [
    "C62_predictive_grammars_take_linear_time",
    "C62_without_productive_refuted"
   ],
   "note": "C62_without_productive_refuted is the limit the property names. productive_check is a sound computable check of the last hypothesis."
  },
  {
   "property": "C63",
   "status": "proved",
   "theorems": [
    "C63_the_text_before_an_error_can_be_continued",
    "C63_errors_stand_no_later_than_the_first_wrong_char",
    "C63_without_productive_refuted"
   ],
   "note": "C63_without_productive_refuted is the limit the property names. That the place can stand before the first wrong char is C60_the_reported_place_is_how_far_it_looked_refuted."
  },
  {
   "property": "C64",
   "status": "proved",
   "theorems": [
    "C64_errors_are_truthful",
    "C64_critical_obstacles_decide"
   ],
   "note": ""
  },
  {
   "property": "C65",
   "status": "proved",
   "theorems": [
    "C65_tables_are_accepted",
    "C65_only_tables_are_accepted",
    "C65_strange_chars_are_reported",
    "C65_every_text_starts_with_a_table",
    "C65_a_text_is_one_table",
    "C65_compact_gives_the_fields",
    "C65_separator_in_the_class_refuted"
   ],
   "note": "C65_separator_in_the_class_refuted is the limit the property names. The rules are those of a user, for every class and pair of separators; the example reads the same rules from a grammar text."
  },
  {
   "property": "C66",
   "status": "proved",
   "theorems": [
    "C66_reserved_words_are_excluded",
    "C66_words_are_accepted_unless_reserved",
    "C66_the_longest_literal_is_matched",
    "C66_any_order_refuted"
   ],
   "note": "C66_any_order_refuted is the limit the property names. longer_first_check is a sound computable check of the order of the words."
  },
  {
   "property": "C67",
   "status": "proved",
   "theorems": [
    "C67_how_many_blanks_does_not_matter",
    "C67_same_but_blanks_is_symmetric",
    "C67_same_error_refuted",
    "C67_blanks_are_as_if_removed"
   ],
   "note": "C67_same_error_refuted is the limit the property names."
  },
  {
   "property": "C68",
   "status": "proved",
   "theorems": [
    "C68_nested_lists_are_read_exactly",
    "C68_every_text_is_decided",
    "C68_a_text_is_one_value",
    "C68_compact_gives_the_words",
    "C68_bracket_in_the_class_refuted"
   ],
   "note": "C68_bracket_in_the_class_refuted is the limit the property names."
  },
  {
   "property": "C69",
   "status": "proved",
   "theorems": [
    "C69_formulas_are_read_exactly",
    "C69_every_text_is_decided",
    "C69_a_text_is_one_formula",
    "C69_operator_of_two_levels_refuted"
   ],
   "note": "C69_operator_of_two_levels_refuted is the limit the property names."
  },
  {
   "property": "C70",
   "status": "proved",
   "theorems": [
    "C70_automata_are_rules",
    "C70_the_tree_is_the_first_run",
    "C70_one_first_run"
   ],
   "note": ""
  },
  {
   "property": "C71",
   "status": "proved",
   "theorems": [
    "C71_combinations",
    "C71_combinations_finish",
    "C71_complement",
    "C71_plain_combinations_refuted"
   ],
   "note": "C71_plain_combinations_refuted is the limit the property names."
  },
  {
   "property": "C72",
   "status": "proved",
   "theorems": [
    "C72_three_equal_numbers",
    "C72_equal_neighbours_refuted"
   ],
   "note": "C72_equal_neighbours_refuted is the limit the property names. That no BNF grammar generates these texts is not part of the claim."
  },
  {
   "property": "C73",
   "status": "proved",
   "theorems": [
    "C73_pieces_are_what_their_rules_give",
    "C73_libraries_keep_their_meaning",
    "C73_pieces_can_be_cut_out",
    "C73_cut_out_pieces_refuted"
   ],
   "note": "C73_cut_out_pieces_refuted is the limit the property names."
  },
  {
   "property": "C74",
   "status": "proved",
   "theorems": [
    "C74_escaped_strings_are_read_exactly",
    "C74_doubled_strings_are_read_exactly",
    "C74_every_text_is_decided",
    "C74_every_content_is_read_back",
    "C74_the_tree_tells_the_content",
    "C74_other_order_refuted"
   ],
   "note": "C74_other_order_refuted is the limit the property names."
  },
  {
   "property": "C75",
   "status": "proved",
   "theorems": [
    "C75_errors_stand_at_the_first_wrong_char",
    "C75_failures_stand_at_the_first_wrong_char",
    "C75_leftovers_start_with_the_first_wrong_char",
    "C75_unsteady_rules_refuted",
    "C75_leftovers_after_repetitions_refuted"
   ],
   "note": "By induction on the reporting semantics: texts that share with the parsed one the chars up to the reported place generate nothing from the part that failed, and texts that share one char more than what matched generate only what matched. Combined with C63. The conditions are needed: two refuted theorems for every distance."
  },
  {
   "property": "C76",
   "status": "proved",
   "theorems": [
    "C76_errors_are_local",
    "C76_errors_are_after_the_good_part",
    "C76_errors_are_after_the_good_part_refuted"
   ],
   "note": "The repetition of definitions in the reporting semantics: definitions before a text that begins one are read exactly (the syntax of SpecSyntax), and the report of the turn that gives up only depends on the rest. For arbitrary texts after the grammar, an induction on the last definition shows that every part of it either stops where it should or has read beyond it. The exception is refuted by a witness."
  },
  {
   "property": "C77",
   "status": "proved",
   "theorems": [
    "C77_json_is_accepted_exactly",
    "C77_the_rest_is_rejected",
    "C77_the_tree_is_that_of_the_value",
    "C77_trees_tell_the_values",
    "C77_a_text_says_one_value",
    "C77_written_values_come_back",
    "C77_json_takes_linear_time",
    "C77_errors_are_not_after_the_mistake",
    "C77_errors_are_at_the_mistake_refuted"
   ],
   "note": "The grammar text is SpecJson.json_grammar and is read by the model of rules_from_peg (computed once, for this text). SpecJson.json_text defines JSON independently of the grammar. Non-ASCII texts are excluded because parse accepts none of them (C06). Number values and escape sequences are kept as written, not interpreted."
  },
  {
   "property": "C78",
   "status": "proved",
   "theorems": [
    "C78_only_the_messages_are_new",
    "C78_answers_stay_or_are_replaced_by_messages",
    "C78_placed_clauses_change_no_tree",
    "C78_placed_clauses_reject_the_same_texts",
    "C78_messages_follow_good_text",
    "C78_clauses_anywhere_refuted",
    "C78_clauses_in_predicates_refuted"
   ],
   "note": "Rules with sane bounds (1 <= max, min <= max). clauses and placed are syntactic relations between rule sets (SpecClauses.v); no rule used in a predicate may be changed. For the last two claims the rules without clauses are also well-formed, predictive and productive (as in C61, C62). The example reads two grammar texts, without and with clauses."
  },
  {
   "property": "C79",
   "status": "proved",
   "theorems": [
    "C79_some_text_is_post",
    "C79_some_text_is_post_for_grammars",
    "C79_the_same_texts_is_post",
    "C79_the_texts_are_the_solutions",
    "C79_each_text_is_answered"
   ],
   "note": "Rules made from tiles (tile_rules) accept a text iff the tiles are a solvable instance of Post's correspondence problem; same for the grammar text and for equality of accepted texts; the rules are well formed. The undecidability of Post's problem itself is not proved here."
  },
  {
   "property": "C80",
   "status": "proved",
   "theorems": [
    "C80_the_rules_of_an_error",
    "C80_the_rules_of_leftovers",
    "C80_the_rules_are_a_path_refuted",
    "C80_the_rules_tell_what_failed_refuted"
   ],
   "note": "Shape of parsing_rules for every error, exact for leftover text; two refuted theorems show that the list is not the documented path and does not tell which rules failed."
  },
  {
   "property": "C81",
   "status": "proved",
   "theorems": [
    "C81_repetition_replaces_left_recursion",
    "C81_rewritten_rules_parse",
    "C81_left_recursive_rules_hang",
    "C81_bases_first_do_not_repeat",
    "C81_bases_first_accept_bases"
   ],
   "note": "Equivalence of left recursion and repetition for the BNF reading (texts and trees), and with C61 for parse; divergence of the left-recursive rules; bases written first never repeat."
  },
  {
   "property": "C82",
   "status": "proved",
   "theorems": [
    "C82_regexes_are_rules",
    "C82_regexes_are_grammars",
    "C82_direct_rules_are_sound",
    "C82_direct_rules_complete_refuted",
    "C82_direct_empty_repetition_hangs"
   ],
   "note": "Rules for any regular expression, with everything that follows copied into each alternative; as rules and as grammar text. Soundness, a counterexample to completeness, and divergence for the symbol by symbol transcription."
  },
  {
   "property": "C83",
   "status": "proved",
   "theorems": [
    "C83_hang_on_what_is_accepted",
    "C83_complain_about_what_is_accepted",
    "C83_some_text_hangs_is_post",
    "C83_some_text_gets_the_message_is_post",
    "C83_an_alternative_is_needed",
    "C83_well_formedness_refuses_good_rules"
   ],
   "note": "Reductions from acceptance to hanging, to a message and to dropping an alternative, for any rules; with C79, from Post's correspondence problem. Undecidability of Post's problem itself is not formalised."
  },
  {
   "property": "C84",
   "status": "proved",
   "theorems": [
    "C84_deterministic_automata_are_linear",
    "C84_automata_can_be_deterministic",
    "C84_regexes_can_be_linear",
    "C84_other_automata_linear_refuted",
    "C84_other_regex_rules_linear_refuted"
   ],
   "note": "Calls are counted by ModelCost. The deterministic rules can be exponentially larger than the expression (subset construction); their size is not bounded by a theorem."
  },
  {
   "property": "C85",
   "status": "proved",
   "theorems": [
    "C85_new_syntax_keeps_old_texts",
    "C85_main_can_grow",
    "C85_predictive_rules_can_grow",
    "C85_last_alternative_is_safe_refuted",
    "C85_used_main_can_grow_refuted"
   ],
   "note": "Error positions and texts may change where alternatives are added; the first theorem speaks of trees, errors and aborts."
  },
  {
   "property": "C86",
   "status": "proved",
   "theorems": [
    "C86_marked_mirrors_are_read_exactly",
    "C86_every_text_is_decided",
    "C86_accepted_texts_are_mirrored",
    "C86_one_char_even",
    "C86_one_char_odd",
    "C86_unmarked_mirrors_are_accepted_refuted"
   ],
   "note": "The exact law without a mark is proved for one char; for more chars soundness and a counterexample."
  },
  {
   "property": "C87",
   "status": "proved",
   "theorems": [
    "C87_the_counted_walk_is_the_walk",
    "C87_few_calls_per_token",
    "C87_calls_are_linear_in_the_text",
    "C87_nesting_is_linear_in_the_text",
    "C87_nesting_grows_with_the_definitions",
    "C87_no_fixed_stack_is_enough"
   ],
   "note": "Counted are the calls of consuming_rule and of the recursive rec_consume functions, in a copy of the token consumer that returns a tally next to its result (ModelWalk); that the copy returns what the consumer returns is the first theorem. The calls made while the text is parsed are C54, their nesting C35."
  },
  {
   "property": "C88",
   "status": "proved",
   "theorems": [
    "C88_what_a_choice_of_literals_accepts",
    "C88_the_longest_used_literal_is_matched",
    "C88_interchangeable_exactly_if_the_used_literals_are_the_same",
    "C88_shadowed_alternatives_can_be_dropped",
    "C88_any_order_exactly_if_apart",
    "C88_orders_that_use_all",
    "C88_any_order_refuted"
   ],
   "note": "interchangeable is C47's: same trees, errors for the same texts, same aborts; which message a plain error carries may differ."
  },
  {
   "property": "C89",
   "status": "proved",
   "theorems": [
    "C89_counting_changes_nothing",
    "C89_work_on_a_tree",
    "C89_exact_work",
    "C89_nesting_is_the_height",
    "C89_work_on_parsed_texts",
    "C89_compact_is_quadratic",
    "C89_passing_through_is_quadratic",
    "C89_no_fixed_stack_is_enough"
   ],
   "note": "Work is counted in copies of the tools that return a cost next to their result (ModelTools); that they return what the tools return is the first theorem. Comparisons with the given names and the growing of Vecs are not counted; ipush and iappend of the idata crate are taken to move only what they add."
  },
  {
   "property": "C90",
   "status": "proved",
   "theorems": [
    "C90_answers_are_copied",
    "C90_copying_is_bounded_by_calls_and_lines",
    "C90_predictive_grammars_copy_little",
    "C90_one_line_is_quadratic",
    "C90_tracing_is_quadratic",
    "C90_every_clone_is_counted"
   ],
   "note": "Counted by ModelCopy, which follows the control flow of the engine. Chars only: the fixed number of words of a clone is proportional to the calls, which C62 bounds."
  },
  {
   "property": "C91",
   "status": "proved",
   "theorems": [
    "C91_stack_machines_are_rules",
    "C91_emptying_machines_are_rules",
    "C91_guessing_machines_are_rules_refuted"
   ],
   "note": "Automata with a stack that read a char in each move; moves that read nothing are not covered, and no tree or cost is claimed."
  },
  {
   "property": "C92",
   "status": "proved",
   "theorems": [
    "C92_children_follow_the_rules",
    "C92_prune_leaves_out",
    "C92_compact_merges",
    "C92_pass_through_opens",
    "C92_children_after_a_chain",
    "C92_all_children_occur",
    "C92_all_children_occur_refuted"
   ],
   "note": "Sane rule sets (C13 says what the others mean). The tool theorems hold for all trees, so they chain."
  },
  {
   "property": "C93",
   "status": "proved",
   "theorems": [
    "C93_no_recursion_is_polynomial",
    "C93_degree_is_the_nesting_of_loops",
    "C93_no_recursion_is_finite",
    "C93_degree_is_needed",
    "C93_a_fixed_stack_is_enough"
   ],
   "note": "Calls and nesting are those of ModelCost (C35, C52). Recursive rules can need exponential time (C52) and any stack (C35)."
  },
  {
   "property": "C94",
   "status": "proved",
   "theorems": [
    "C94_no_recursion_is_an_automaton",
    "C94_no_recursion_is_a_regular_expression",
    "C94_automata_need_no_recursion",
    "C94_regular_expressions_need_no_recursion",
    "C94_long_texts_repeat",
    "C94_pairs_need_recursion"
   ],
   "note": "The rule for an automaton grows exponentially with its states: it shows what can be said, not how to say it. With recursion rules for automata are small (C70)."
  },
  {
   "property": "C95",
   "status": "proved",
   "theorems": [
    "C95_the_kind_can_be_told",
    "C95_some_text_can_be_told",
    "C95_all_texts_can_be_told",
    "C95_hanging_can_be_told",
    "C95_messages_can_be_told",
    "C95_the_same_texts_can_be_told",
    "C95_inclusion_can_be_told",
    "C95_common_texts_can_be_told"
   ],
   "note": "Statements of the form {s | ..} + {forall s, ..}: without axioms such a proof is a program. It searches all texts up to the number of states of the automaton, so it is not meant to be run."
  },
  {
   "property": "C96",
   "status": "proved",
   "theorems": [
    "C96_a_strange_char_is_an_end",
    "C96_one_way_to_split",
    "C96_lines_one_by_one",
    "C96_lines_have_no_line_end",
    "C96_one_line_decides_the_end",
    "C96_messages_of_one_line",
    "C96_errors_stand_in_the_first_bad_line",
    "C96_the_last_line_must_end",
    "C96_rows_name_the_bad_line",
    "C96_calls_add_up",
    "C96_messages_spoil_the_end_refuted",
    "C96_greedy_lines_refuted",
    "C96_rows_one_too_far_refuted"
   ],
   "note": "SpecLines says what it means that an expression does not mind a char, what the lines of a text are and what it is to read a line alone. The semantics in front of the line end is shown equal to the semantics at the end of the text, for matches, reports and costs; the loop is then followed line by line. Three theorems with the suffix _refuted show that the conditions on the empty text and on the line rule are needed and that the exception about rows is real."
  },
  {
   "property": "C97",
   "status": "proved",
   "theorems": [
    "C97_texts_are_cut_into_tokens",
    "C97_one_way_to_cut",
    "C97_the_list_of_tokens",
    "C97_rejected_where_no_token_starts",
    "C97_errors_stand_after_the_tokens",
    "C97_messages_of_tokens",
    "C97_empty_tokens_hang",
    "C97_order_does_not_matter",
    "C97_order_matters_refuted",
    "C97_empty_token_refuted"
   ],
   "note": "SpecLexer says what the first rule at a place and the tokens of a text are, in terms of the semantics of the token rules alone, without main. Theorems with the suffix _refuted show that the order of the rules and empty tokens matter."
  },
  {
   "property": "C98",
   "status": "proved",
   "theorems": [
    "C98_accepted_texts_can_be_made_to_hang",
    "C98_accepted_texts_can_be_made_to_complain",
    "C98_accepted_texts_can_be_marked",
    "C98_hanging_is_post",
    "C98_messages_are_post",
    "C98_missing_rules_are_post",
    "C98_used_rules_are_post",
    "C98_all_texts_are_post",
    "C98_a_tool_would_solve_post",
    "C98_no_grammar_for_grammars_that_reject_themselves"
   ],
   "note": "General reductions (hanging, messages, missing rules, marks) for all rules; instances for tiles in both directions; tools as arbitrary functions rules -> bool. That Post's problem itself has no program (Post 1946) is not proved here. The diagonal theorem on grammar texts is proved outright."
  },
  {
   "property": "C99",
   "status": "proved",
   "theorems": [
    "C99_first_match_is_found",
    "C99_rejected_without_a_match",
    "C99_only_the_last_message",
    "C99_search_ends",
    "C99_one_first_match",
    "C99_all_matches_are_found",
    "C99_one_way_to_scan",
    "C99_every_text_can_be_scanned",
    "C99_hits_and_the_rest",
    "C99_empty_matches_refuted"
   ],
   "note": "For all rules and texts; acceptance, tree, rejection, message and ending of the search are each an equivalence."
  },
  {
   "property": "C100",
   "status": "proved",
   "theorems": [
    "C100_comments_are_closed_by_counting",
    "C100_the_tree_of_a_comment",
    "C100_one_way_to_read",
    "C100_other_texts_are_rejected",
    "C100_linear_time",
    "C100_exponential_without_it",
    "C100_single_chars",
    "C100_longer_marks_refuted"
   ],
   "note": "For all marks and texts; the counting specification does not mention the rules. Calls are counted as in C52."
  },
  {
   "property": "C101",
   "status": "proved",
   "theorems": [
    "C101_blocks_are_read_with_a_stack",
    "C101_the_missing_mark_is_named",
    "C101_other_errors",
    "C101_one_verdict",
    "C101_the_tree_of_a_block",
    "C101_linear_time",
    "C101_every_parse_ends",
    "C101_marks_that_start_marks_refuted"
   ],
   "note": "For all kinds and texts. The stack reader is a separate specification that does not mention rules; kinds may share a closing mark."
  },
  {
   "property": "C102",
   "status": "proved",
   "theorems": [
    "C102_bad_lines_are_set_aside",
    "C102_every_line_gives_one_thing",
    "C102_the_last_line_must_end",
    "C102_messages_are_not_set_aside",
    "C102_every_line_has_to_end",
    "C102_calls_add_up",
    "C102_choice_before_the_line_end_refuted"
   ],
   "note": "For all rules, lines and both debug modes: the whole tree for a text with bad lines, that every line gives one thing, the end of the last line, messages, termination and the number of calls. A variant of the rules is refuted."
  },
  {
   "property": "C103",
   "status": "proved",
   "theorems": [
    "C103_texts_are_read_as_if_replaced",
    "C103_same_messages",
    "C103_same_ends",
    "C103_calls",
    "C103_only_what_counts_matters",
    "C103_plain_texts_as_before",
    "C103_capitals_in_rules_refuted"
   ],
   "note": "For all rules, all maps of chars and all ASCII texts: acceptance and trees in both directions, messages, termination, calls, and two consequences. That rules may be written with capital letters is refuted."
  },
  {
   "property": "C104",
   "status": "proved",
   "theorems": [
    "C104_pieces_can_be_exchanged",
    "C104_edits_need_no_new_parse",
    "C104_every_node_can_be_exchanged",
    "C104_exchange_in_general_refuted"
   ],
   "note": "For all rules where the next char decides: exchange of nodes between trees, edits parsed by the rule of the node alone, and what happens to the text. The claim for rules in general is refuted."
  },
  {
   "property": "C105",
   "status": "proved",
   "theorems": [
    "C105_words_are_read_as_chars",
    "C105_texts_count_as_one_text",
    "C105_same_messages",
    "C105_same_ends",
    "C105_calls",
    "C105_starts_of_other_words_refuted"
   ],
   "note": "For all rules and all codes without words that start others: acceptance and trees in both directions for all texts, uniqueness of what a text counts as, messages, termination and calls. The condition on words is shown to be needed."
  },
  {
   "property": "C106",
   "status": "proved",
   "theorems": [
    "C106_rewriting_is_sound",
    "C106_rewriting_both_ways_is_exact",
    "C106_rewriting_to_well_formed_rules_is_exact",
    "C106_same_view_is_a_congruence",
    "C106_helper_rules",
    "C106_literals_can_be_cut",
    "C106_recursion_is_plus",
    "C106_recursion_is_list",
    "C106_pruned_rules_need_only_match",
    "C106_empty_literals_stay_refuted",
    "C106_kept_rules_show_refuted"
   ],
   "note": "A congruence for arbitrary replacements (soundness for any rewriting, exactness for rewritings that go both ways or to well formed rules), and its instances: helper rules, literals, both recursions, pruned rules. Two witnesses show where it ends."
  },
  {
   "property": "C107",
   "status": "proved",
   "theorems": [
    "C107_errors",
    "C107_accepted_texts",
    "C107_blames_defects_only",
    "C107_blames_the_first_defect",
    "C107_error_of_the_first_defect",
    "C107_display"
   ],
   "note": "fault computes the whole error from the tree; first_defect is the same as a relation (path to the first defect, everything to the left is free of defects). The syntax errors of the parser are the subject of C15, C22 and the theorems about parse."
  },
  {
   "property": "C108",
   "status": "proved",
   "theorems": [
    "C108_last_definition_wins",
    "C108_one_macro_will_do",
    "C108_same_map",
    "C108_same_answers",
    "C108_every_finite_map",
    "C108_overwritten_definitions",
    "C108_order_of_definitions",
    "C108_merge_laws",
    "C108_merge_order_matters",
    "C108_add_laws"
   ],
   "note": "history is an inductive definition over all ways to build a rule set, with arbitrary reordering of the entries at any time for the unspecified iteration order of HashMap. A rule set read from a PEG text contributes its own bindings as definitions; which bindings those are is the subject of the theorems about rules_from_peg."
  },
  {
   "property": "C109",
   "status": "proved",
   "theorems": [
    "C109_accepted_texts",
    "C109_nearest_wins",
    "C109_one_nearest_reading",
    "C109_other_texts_are_rejected",
    "C109_linear_on_statements",
    "C109_quadratic_on_all_texts",
    "C109_quadratic_is_needed",
    "C109_long_alternative_first",
    "C109_long_alternative_is_exponential",
    "C109_short_alternative_first"
   ],
   "note": "stm is the ambiguous syntax, nearest the rule that settles it; awaits is a second description of the accepted texts that only counts. The work is counted in calls of parse_expr (ModelCost)."
  },
  {
   "property": "C110",
   "status": "proved",
   "theorems": [
    "C110_grammar_text",
    "C110_accepted_texts",
    "C110_other_texts_are_rejected",
    "C110_one_reading",
    "C110_every_table_comes_back",
    "C110_quotes_where_needed",
    "C110_linear",
    "C110_errors_show_the_mistake",
    "C110_mistakes"
   ],
   "note": "csv_rules is what rules_from_peg gives for the grammar text (first theorem). A cell is a field as it is written, content what it says; write is one way to choose the quotes. Inputs are ASCII; the work is counted in calls of parse_expr (ModelCost)."
  },
  {
   "property": "C111",
   "status": "proved",
   "theorems": [
    "C111_walks_are_recursions",
    "C111_wrong_tokens_are_noticed",
    "C111_no_result_for_wrong_tokens",
    "C111_walks_over_slices",
    "C111_both_ways_agree",
    "C111_the_tree_can_be_built_again",
    "C111_slices_with_eof_refuted"
   ],
   "note": "visit and visit_nodes are programs of a user, written with the modelled helpers only; fold_node is the recursion they are compared with, over any type of results and any partial functions. Fuel bounds the nesting of the programs; one more than the number of tokens or nodes is enough."
  },
  {
   "property": "C112",
   "status": "proved",
   "theorems": [
    "C112_values",
    "C112_failing_operations",
    "C112_other_texts_are_rejected",
    "C112_nothing_else",
    "C112_one_value"
   ],
   "note": "calculate is a program of a user, written with the modelled functions of the crate only; denotes is a grammar with values over texts, generic in the numbers and operations. Fuel is one number for all the stages; theorems say that some fuel gives the answer, and that no fuel gives another one."
  },
  {
   "property": "C113",
   "status": "proved",
   "theorems": [
    "C113_values",
    "C113_other_texts_are_rejected",
    "C113_nothing_else",
    "C113_written_values_come_back"
   ],
   "note": "read_json is a program of a user, written with the modelled functions of the crate only. Strings and numbers are given as written. Some fuel gives the answer and no fuel gives another one."
  },
  {
   "property": "C114",
   "status": "proved",
   "theorems": [
    "C114_accepted",
    "C114_rejected",
    "C114_one_reading",
    "C114_short_ones_first_refuted"
   ],
   "note": "All lists of bounds, all separators that are no digits; the rules are built with the macros. The numbers are written as usize::to_string writes them."
  },
  {
   "property": "C115",
   "status": "proved",
   "theorems": [
    "C115_accepted",
    "C115_rejected",
    "C115_all_orders",
    "C115_one_reading",
    "C115_plain_choice_refuted"
   ],
   "note": "All lists of words without the mark; the rules are built with the macros."
  },
  {
   "property": "C116",
   "status": "proved",
   "theorems": [
    "C116_the_longest_word_is_matched",
    "C116_accepted",
    "C116_rejected",
    "C116_any_order",
    "C116_calls",
    "C116_calls_of_a_choice"
   ],
   "note": "All lists of words. Calls are those of C52 and C54."
  },
  {
   "property": "C117",
   "status": "proved",
   "theorems": [
    "C117_long_generated_texts_repeat",
    "C117_long_accepted_texts_repeat",
    "C117_three_equal_numbers_are_not_generated",
    "C117_three_equal_numbers_need_more",
    "C117_copies_are_not_generated",
    "C117_copies_need_more",
    "C117_long_accepted_texts_repeat_refuted"
   ],
   "note": "Pumping lemma for derives (SpecBnf), for all rules, with a bound on the distance of the two parts; through C61 for accepted texts of predictive rules; impossibility of three equal numbers and of copies for both; the rules of C72 refute it for rules with predicates."
  },
  {
   "property": "C118",
   "status": "proved",
   "theorems": [
    "C118_fields_one_by_one",
    "C118_a_separator_at_the_end",
    "C118_rows_of_fields",
    "C118_one_field_decides_the_end",
    "C118_messages_of_one_field",
    "C118_errors_stand_in_the_first_bad_field",
    "C118_errors_in_the_last_field",
    "C118_fields_that_take_separators_refuted",
    "C118_optional_separators_refuted"
   ],
   "note": "Both rule shapes at once (with and without the separator at the end). Acceptance with the exact tree, termination, messages and the place of the error, each in terms of parsing one field alone; two refuted variants. A text that field_rules reject with an empty last field after others, under trail_rules, is covered by the acceptance theorem."
  },
  {
   "property": "C119",
   "status": "proved",
   "theorems": [
    "C119_children_are_printed_as_alone",
    "C119_values",
    "C119_rules_are_printed_as_alone",
    "C119_parts_are_printed_as_alone",
    "C119_strings_stay_on_a_line",
    "C119_lines_of_a_tree"
   ],
   "note": "Pretty output of the public types; the derives and std's builders are modelled in ModelPretty.v."
  },
  {
   "property": "C120",
   "status": "proved",
   "theorems": [
    "C120_records_are_accepted",
    "C120_only_records_are_accepted",
    "C120_a_text_is_one_list",
    "C120_compact_gives_the_records",
    "C120_the_first_wrong_column_is_named",
    "C120_every_text_stops_somewhere",
    "C120_the_place_tells_record_and_column",
    "C120_only_the_length_matters",
    "C120_no_columns_refuted"
   ],
   "note": "Together with the statement that every text stops somewhere, the theorems give the result of the parse on every ASCII text."
  }
 ]
}