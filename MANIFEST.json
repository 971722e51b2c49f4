{
 "claims": [
  {
   "property": "C01",
   "status": "proved",
   "theorems": [
    "C01_pieces_cover_the_input",
    "C01_lengths_add_up",
    "C01_texts_are_the_input_refuted"
   ],
   "note": "main pass, all tables, texts, spans and iteration orders; that the texts themselves are the input (rather than up to case) is refuted"
  },
  {
   "property": "C02",
   "status": "proved",
   "theorems": [
    "C02_main_pass_ends",
    "C02_main_pass_ends_without_emphasis",
    "C02_compiling",
    "C02_compbrl_space_refuted",
    "C02_passes_terminate",
    "C02_translators_end"
   ],
   "note": "multipass passes for every table; main pass and whole translators for every table without a compbrl trigger that starts with a space; the exception is shown not to end"
  },
  {
   "property": "C03",
   "status": "proved",
   "theorems": [
    "C03_pass_covers_input",
    "C03_pieces_are_copies_or_replacements",
    "C03_nothing_fits_nothing_changes"
   ],
   "note": "all passes, rule sets and inputs"
  },
  {
   "property": "C04",
   "status": "proved",
   "theorems": [
    "C04_passes_in_order",
    "C04_each_pass_reads_the_previous",
    "C04_translate_is_the_last_pass",
    "C04_simple_calls"
   ],
   "note": "all tables, directions, inputs and options"
  },
  {
   "property": "C05",
   "status": "proved",
   "theorems": [
    "C05_variables_of_a_pass",
    "C05_the_variable_store",
    "C05_one_value",
    "C05_same_table_same_result",
    "C05_compiled_twice",
    "C05_same_result_refuted",
    "C05_variables_of_the_main_pass"
   ],
   "note": "all tables, inputs and iteration orders up to ties (the tie is shown to matter); variables of both kinds of passes; that one translator answers the same every time holds because translate takes a shared reference without interior mutability: the model functions are pure"
  },
  {
   "property": "C06",
   "status": "proved",
   "theorems": [
    "C06_every_choice_is_the_strongest",
    "C06_nothing_is_left",
    "C06_passes_apply_the_heaviest_rule",
    "C06_passes_choose",
    "C06_passes_miss_no_rule"
   ],
   "note": "main pass and the passes correct/pass2-4"
  },
  {
   "property": "C07",
   "status": "proved",
   "theorems": [
    "C07_main_pass_no_insertion_twice",
    "C07_no_insertion_twice_in_a_place",
    "C07_every_position_refuted",
    "C07_same_rule_twice_refuted"
   ],
   "note": "both kinds of passes; \"at every position\" and \"the same rule\" are refuted"
  },
  {
   "property": "C08",
   "status": "proved",
   "theorems": [
    "C08_nocross_rules_do_not_cross",
    "C08_nocross_rules_are_used"
   ],
   "note": "both directions of the claim"
  },
  {
   "property": "C09",
   "status": "proved",
   "theorems": [
    "C09_no_contraction_in_numbers",
    "C09_nocross_in_number_refuted"
   ],
   "note": "with the exact exceptions; the simple reading is refuted"
  },
  {
   "property": "C10",
   "status": "proved",
   "theorems": [
    "C10_computer_braille",
    "C10_nocross_in_span_refuted"
   ],
   "note": "with the exact exception; the simple reading is refuted"
  },
  {
   "property": "C11",
   "status": "proved",
   "theorems": [
    "C11_compbrl_words",
    "C11_compbrl_at_a_space_never_ends",
    "C11_compbrl_words_are_computer_braille"
   ],
   "note": "exact marking; a trigger at a space never ends, also proved"
  },
  {
   "property": "C12",
   "status": "proved",
   "theorems": [
    "C12_prepunc_before_words",
    "C12_postpunc_behind_words",
    "C12_nocross_prepunc_refuted"
   ],
   "note": "with the exact exception; the simple reading is refuted"
  },
  {
   "property": "C13",
   "status": "proved",
   "theorems": [
    "C13_every_character_has_a_translation",
    "C13_pieces_without_a_rule"
   ],
   "note": "every character and every set of definitions"
  },
  {
   "property": "C14",
   "status": "proved",
   "theorems": [
    "C14_same_braille_iff",
    "C14_different_braille_refuted"
   ],
   "note": "the exact condition; the simple reading is refuted"
  },
  {
   "property": "C15",
   "status": "proved",
   "theorems": [
    "C15_lookup_exact",
    "C15_weight",
    "C15_text_condition",
    "C15_insert_panics_only_on_empty_text"
   ],
   "note": "all tables, inputs and hash-map iteration orders"
  },
  {
   "property": "C16",
   "status": "proved",
   "theorems": [
    "C16_one_of_rivals",
    "C16_first_wins_among_default",
    "C16_last_of_higher_precedence",
    "C16_last_wins_without_compat",
    "C16_first_rule_wins_refuted",
    "C16_indicator_below_translation_refuted"
   ],
   "note": "exactly one rival is in force; which one is proved for both builds; the simple readings (first wins / indicators rank below translation rules) are refuted"
  },
  {
   "property": "C17",
   "status": "proved",
   "theorems": [
    "C17_offer_fits"
   ],
   "note": "all offers of the rule trie"
  },
  {
   "property": "C18",
   "status": "proved",
   "theorems": [
    "C18_match_found_iff_pattern_matches"
   ],
   "note": "all patterns without a bounded range; ranges are C21"
  },
  {
   "property": "C19",
   "status": "proved",
   "theorems": [
    "C19_patterns_with_ranges",
    "C19_test_operands",
    "C19_empty_repetition_refuted",
    "C19_first_match_in_backtracking_order",
    "C19_backtracking_outcomes_are_matches"
   ],
   "note": "all patterns whose loop bodies consume a character (ranges as in C21), all test operands; refuted for match patterns with an empty repetition"
  },
  {
   "property": "C20",
   "status": "proved",
   "theorems": [
    "C20_matcher_never_panics",
    "C20_instructions_visited_once_per_position"
   ],
   "note": "no panic for every pattern and input; instructions visited at most once per position"
  },
  {
   "property": "C21",
   "status": "proved",
   "theorems": [
    "C21_range_accepts_too_many_refuted",
    "C21_range_rejects_permitted_refuted",
    "C21_range_actual",
    "C21_ranges_in_any_pattern",
    "C21_exact_count",
    "C21_one_or_more"
   ],
   "note": "all patterns with ranges; the documented reading is refuted both ways"
  },
  {
   "property": "C22",
   "status": "proved",
   "theorems": [
    "C22_negated_class",
    "C22_negated_anchor",
    "C22_negated_any_never_matches",
    "C22_negated_string_actual",
    "C22_negation_actual",
    "C22_negated_unset_variable_refuted",
    "C22_negated_string_refuted",
    "C22_negated_either_refuted"
   ],
   "note": "every negatable pattern; the documented readings are refuted"
  },
  {
   "property": "C23",
   "status": "proved",
   "theorems": [
    "C23_accepted_match_operands_compile",
    "C23_parsers_terminate",
    "C23_accepted_tests_compile",
    "C23_tests_without_comparison_compile",
    "C23_accepted_test_compiles_refuted",
    "C23_accepted_match_compiles_refuted"
   ],
   "note": "exact conditions (iff) for tests and for match operands; both exceptions are shown to panic"
  },
  {
   "property": "C24",
   "status": "proved",
   "theorems": [
    "C24_replaces_bracketed_span",
    "C24_without_brackets_replaces_all",
    "C24_unknown_swap_class_is_an_error",
    "C24_nested_brackets_refuted"
   ],
   "note": "all accepted tests and actions; nested brackets are the refuted exception"
  },
  {
   "property": "C25",
   "status": "proved",
   "theorems": [
    "C25_digit_class_refuted",
    "C25_midnum_with_numericmodechars_refuted",
    "C25_number_signs"
   ],
   "note": "exact positions of number signs; two simple readings are refuted"
  },
  {
   "property": "C26",
   "status": "proved",
   "theorems": [
    "C26_signs_of_a_position",
    "C26_signs_come_from_the_table",
    "C26_signs_stand_first",
    "C26_sign_inside_contraction_refuted"
   ],
   "note": "every list of spans; signs inside a contraction are shown to be lost"
  },
  {
   "property": "C27",
   "status": "proved",
   "theorems": [
    "C27_capital_signs",
    "C27_end_before_is_not_written",
    "C27_end_before_refuted"
   ],
   "note": "exact signs; an endcapsphrase before sign is shown never to be written"
  },
  {
   "property": "C28",
   "status": "proved",
   "theorems": [
    "C28_emphasis_signs",
    "C28_mixed_signs_refuted"
   ],
   "note": "order where signs of one kind meet; mixed signs are the refuted exception"
  },
  {
   "property": "C29",
   "status": "proved",
   "theorems": [
    "C29_letter_between_spaces_refuted",
    "C29_letter_signs",
    "C29_nocontract_signs"
   ],
   "note": "exact positions; the simple reading is refuted"
  },
  {
   "property": "C30",
   "status": "proved",
   "theorems": [
    "C30_abutting_spans_refuted",
    "C30_computer_braille_signs"
   ],
   "note": "exact signs; the order at abutting spans is the refuted exception"
  },
  {
   "property": "C31",
   "status": "proved",
   "theorems": [
    "C31_break_points_follow_liang",
    "C31_dictionary_holds_the_pattern_lines",
    "C31_pattern_line"
   ],
   "note": "dictionary parsing and break points, all dictionaries and words"
  },
  {
   "property": "C32",
   "status": "proved",
   "theorems": [
    "C32_cell_is_plane_plus_bits",
    "C32_different_dots_different_characters",
    "C32_dot_zero_is_lost_refuted",
    "C32_operand_syntax",
    "C32_printing_cells"
   ],
   "note": "all dot sets and operands; dot 0 is invisible in the character (refuted part shown)"
  },
  {
   "property": "C33",
   "status": "proved",
   "theorems": [
    "C33_input_to_output_map",
    "C33_output_to_input_map",
    "C33_characters_align_within_a_piece"
   ],
   "note": "all traces"
  },
  {
   "property": "C34",
   "status": "proved",
   "theorems": [
    "C34_display",
    "C34_display_concat"
   ],
   "note": "both builds"
  },
  {
   "property": "C35",
   "status": "proved",
   "theorems": [
    "C35_decoding_exact",
    "C35_malformed_rejected",
    "C35_documented_syntax",
    "C35_plain_text",
    "C35_every_text_can_be_written",
    "C35_result_is_text",
    "C35_malformed_hex_refuted"
   ],
   "note": "exact: decoding succeeds iff the operand is well formed per UnescapeSpec.v; the plus sign exception is shown"
  },
  {
   "property": "C36",
   "status": "proved",
   "theorems": [
    "C36_undefined_character",
    "C36_named_character",
    "C36_same_dots",
    "C36_implicit_dots",
    "C36_implicit_dots_concat"
   ],
   "note": "operand, piece of the trace, error when building"
  },
  {
   "property": "C37",
   "status": "proved",
   "theorems": [
    "C37_rules_that_write_nothing_are_not_used_backward",
    "C37_unmeant_rules_are_not_used",
    "C37_main_pass_without_unmeant_rules",
    "C37_unmarked_rules_are_used_both_ways",
    "C37_nofor_has_no_effect_refuted"
   ],
   "note": "all tables and directions; that a marked rule has no effect at all is refuted"
  },
  {
   "property": "C38",
   "status": "proved",
   "theorems": [
    "C38_ends",
    "C38_rules",
    "C38_errors",
    "C38_when",
    "C38_substitution_determined",
    "C38_cycles",
    "C38_depth",
    "C38_several_tables",
    "C38_inline",
    "C38_in_memory",
    "C38_marked_once"
   ],
   "note": "all file systems (fixed while a table is read), all include graphs"
  },
  {
   "property": "C39",
   "status": "proved",
   "theorems": [
    "C39_all_rules",
    "C39_all_errors",
    "C39_when",
    "C39_lines_determined",
    "C39_lines_local"
   ],
   "note": "all texts; white space of str::trim is a parameter"
  },
  {
   "property": "C40",
   "status": "proved",
   "theorems": [
    "C40_query",
    "C40_order",
    "C40_index",
    "C40_empty_query_refuted",
    "C40_command_line"
   ],
   "note": "indexing and queries proved; C40_empty_query_refuted: the empty query panics"
  },
  {
   "property": "C41",
   "status": "proved",
   "theorems": [
    "C41_restrictions_are_the_union"
   ],
   "note": "every set of sources"
  },
  {
   "property": "C42",
   "status": "proved",
   "theorems": [
    "C42_capitals_restored"
   ],
   "note": "backward, every table and text"
  },
  {
   "property": "C43",
   "status": "proved",
   "theorems": [
    "C43_definitions",
    "C43_first_definition_wins",
    "C43_derived_characters_inherit",
    "C43_classes",
    "C43_dots_classes",
    "C43_undefined_base",
    "C43_undefined_base_is_error_refuted",
    "C43_class_opcode_refuted"
   ],
   "note": "definitions and classes for both builds; the default build ignores undefined bases and the class opcode (refuted parts shown)"
  },
  {
   "property": "C44",
   "status": "proved",
   "theorems": [
    "C44_case_of_input",
    "C44_case_of_input_text",
    "C44_uppercase_rule_text_refuted"
   ],
   "note": "upper-case rule texts are never found (refuted part shown)"
  },
  {
   "property": "C45",
   "status": "proved",
   "theorems": [
    "C45_variable_steps_rejected_refuted"
   ],
   "note": "every operand; the documented feature is unusable"
  },
  {
   "property": "C46",
   "status": "proved",
   "theorems": [
    "C46_hyphen_operand_fits_everywhere",
    "C46_hyphen_operand_ignores_rest_refuted"
   ],
   "note": "every operand and text"
  },
  {
   "property": "C47",
   "status": "proved",
   "theorems": [
    "C47_lookback_makes_no_difference"
   ],
   "note": "every test"
  },
  {
   "property": "C48",
   "status": "proved",
   "theorems": [
    "C48_any_attribute_never_matches_refuted"
   ],
   "note": "every such test; the documentation is refuted"
  },
  {
   "property": "C49",
   "status": "proved",
   "theorems": [
    "C49_match_rule_exact",
    "C49_accepted_rules_compile",
    "C49_all_rules_looked_up"
   ],
   "note": "every rule without nested negation (a panic otherwise, C23)"
  },
  {
   "property": "C50",
   "status": "proved",
   "theorems": [
    "C50_prepunc_or_postpunc"
   ],
   "note": "both builds, all texts"
  },
  {
   "property": "C51",
   "status": "proved",
   "theorems": [
    "C51_words_in_their_place",
    "C51_no_word_is_missed",
    "C51_the_only_rule_is_applied"
   ],
   "note": "forward, all rules with a text"
  },
  {
   "property": "C52",
   "status": "proved",
   "theorems": [
    "C52_only_emphasis_is_used",
    "C52_only_output_is_filled_in"
   ],
   "note": "all translators, inputs and options"
  },
  {
   "property": "C53",
   "status": "proved",
   "theorems": [
    "C53_emphasis_counts_the_text_of_the_main_pass",
    "C53_emphasis_counts_the_input_refuted"
   ],
   "note": "all translators, inputs and spans; the simple reading is refuted"
  },
  {
   "property": "C54",
   "status": "proved",
   "theorems": [
    "C54_rule_lines",
    "C54_one_reading",
    "C54_ends",
    "C54_unknown_opcode",
    "C54_forbidden_marks",
    "C54_marked_once",
    "C54_words_after",
    "C54_words_after_refuted",
    "C54_conditions_dropped_refuted",
    "C54_grouping_marks_refuted"
   ],
   "note": "all lines and opcodes; that every word before the opcode matters is refuted"
  },
  {
   "property": "C55",
   "status": "proved",
   "theorems": [
    "C55_compile",
    "C55_definitions",
    "C55_new",
    "C55_from_source",
    "C55_no_panic",
    "C55_never_panics_refuted"
   ],
   "note": "the problem list is exact; the claim that building never panics is refuted"
  },
  {
   "property": "C56",
   "status": "proved",
   "theorems": [
    "C56_signs",
    "C56_forward",
    "C56_backward",
    "C56_match_backward",
    "C56_rules_turned_round_refuted"
   ],
   "note": "context rules: C24; match rules backward are the exception"
  },
  {
   "property": "C57",
   "status": "proved",
   "theorems": [
    "C57_tests",
    "C57_actions",
    "C57_otherwise_rejected",
    "C57_one_reading",
    "C57_every_text_can_be_quoted",
    "C57_escapes_of_other_operands_refuted"
   ],
   "note": "iff for every operand; grammar in OperandSpec.v"
  },
  {
   "property": "C58",
   "status": "proved",
   "theorems": [
    "C58_patterns",
    "C58_otherwise_rejected",
    "C58_one_reading",
    "C58_quantifier_repeats_run_refuted",
    "C58_backslash_cannot_be_written_refuted"
   ],
   "note": "iff for every operand; grammar in OperandSpec.v"
  },
  {
   "property": "C59",
   "status": "proved",
   "theorems": [
    "C59_results",
    "C59_ends",
    "C59_one_result_each",
    "C59_results_determined",
    "C59_unchecked",
    "C59_every_test_is_run_refuted",
    "C59_positions_refuted"
   ],
   "note": "iff for every event stream; libyaml itself is not modelled; positions are not checked (refuted reading)"
  },
  {
   "property": "C60",
   "status": "proved",
   "theorems": [
    "C60_columns",
    "C60_details",
    "C60_summary"
   ],
   "note": "counts and order; percentages and layout are not modelled"
  },
  {
   "property": "C61",
   "status": "proved",
   "theorems": [
    "C61_rule_text",
    "C61_tests_read_back",
    "C61_patterns_read_back",
    "C61_rows",
    "C61_ends",
    "C61_printable_tables",
    "C61_every_table_can_be_traced_refuted",
    "C61_shown_rules_are_lines_refuted",
    "C61_different_rules_look_different_refuted"
   ],
   "note": "every table read from lines; layout of the table is not modelled"
  },
  {
   "property": "C62",
   "status": "proved",
   "theorems": [
    "C62_round_trip",
    "C62_round_trip_exact",
    "C62_alphabet",
    "C62_case_refuted",
    "C62_different_dots_refuted"
   ],
   "note": "lossless tables as defined in RoundSpec.v; the two exceptions are refuted readings"
  },
  {
   "property": "C63",
   "status": "proved",
   "theorems": [
    "C63_absent_rules_do_nothing",
    "C63_letters_of_always_refuted"
   ],
   "note": "always rules for letters: forward without pass2-4, the rest is refuted"
  },
  {
   "property": "C64",
   "status": "proved",
   "theorems": [
    "C64_two_words",
    "C64_words",
    "C64_lettersigns_refuted",
    "C64_phrases_refuted",
    "C64_spaces_in_rules_refuted"
   ],
   "note": "tables without the rules that look beyond words; the rest is refuted"
  },
  {
   "property": "C65",
   "status": "proved",
   "theorems": [
    "C65_emphasis_only_adds_signs",
    "C65_other_classes_do_nothing",
    "C65_sign_rules_only_add_signs",
    "C65_computer_braille_refuted",
    "C65_numsign_backward_refuted",
    "C65_later_passes_refuted"
   ],
   "note": "the exceptions are refuted readings"
  },
  {
   "property": "C66",
   "status": "proved",
   "theorems": [
    "C66_ignored_opcodes"
   ],
   "note": "equality of the compiled translators"
  },
  {
   "property": "C67",
   "status": "proved",
   "theorems": [
    "C67_rules_can_be_moved",
    "C67_same_text_refuted"
   ],
   "note": "end to end for the compiled translators, both directions and builds; rules for the same text refuted"
  },
  {
   "property": "C68",
   "status": "proved",
   "theorems": [
    "C68_swap_class",
    "C68_swap_action",
    "C68_earlier_rules_refuted"
   ],
   "note": "all tables and names; adding up is refuted"
  },
  {
   "property": "C69",
   "status": "proved",
   "theorems": [
    "C69_only_what_the_rules_write",
    "C69_tables_write_braille",
    "C69_table_text_writes_braille",
    "C69_any_table_refuted"
   ],
   "note": "tables as they are read; any table is refuted"
  },
  {
   "property": "C70",
   "status": "proved",
   "theorems": [
    "C70_match_rules_fit",
    "C70_no_match_rule_is_missed",
    "C70_no_context_rule_is_missed",
    "C70_offers_are_kept_behind_insertions_refuted"
   ],
   "note": "with C49, C24 and C05; nested negation of match patterns is excluded"
  },
  {
   "property": "C71",
   "status": "proved",
   "theorems": [
    "C71_forward",
    "C71_backward",
    "C71_round_trip",
    "C71_unambiguous",
    "C71_digit_behind_letter_refuted",
    "C71_letter_behind_digit_refuted",
    "C71_digits_first_refuted",
    "C71_decimals_refuted"
   ],
   "note": "default build (first rule wins); the readings without the provisos are refuted (digit behind letter, letter behind digit, digits defined first, decimal numbers)"
  },
  {
   "property": "C72",
   "status": "proved",
   "theorems": [
    "C72_displaced_in_any_order",
    "C72_the_last_displaces",
    "C72_the_first_stays",
    "C72_the_last_counts",
    "C72_places",
    "C72_digits_displaced_refuted",
    "C72_the_first_rule_counts_refuted"
   ],
   "note": "the list of displacing opcodes is stated in RivalSpec, independently of the model's precedences; refuted readings: digits are displaced backward too, the first rule counts"
  },
  {
   "property": "C73",
   "status": "proved",
   "theorems": [
    "C73_one_definition",
    "C73_the_definition_used",
    "C73_undefined_characters",
    "C73_always_the_same",
    "C73_the_first_definition_refuted"
   ],
   "note": "the definitions that count are stated in DefinitionSpec without the compiled table; refuted reading: the first definition in the table counts"
  },
  {
   "property": "C74",
   "status": "proved",
   "theorems": [
    "C74_output_is_proportional",
    "C74_pieces_are_proportional",
    "C74_rules_applied",
    "C74_bounded_by_the_text_refuted"
   ],
   "note": "the number is found from the table (rules that insert, longest operands, emphasis classes); variables are shown only to gate rules, so one rule gives one insertion at a position; hypothesis: upper-casing has bounded length (3 in Unicode), needed backward only"
  },
  {
   "property": "C75",
   "status": "proved",
   "theorems": [
    "C75_text_pieces",
    "C75_no_signs",
    "C75_classes_refuted",
    "C75_triggers_refuted"
   ],
   "note": "end to end for the compiled translator; the exceptions are exactly the rules named, two of them shown necessary by counterexamples (C75_classes_refuted, C75_triggers_refuted)"
  },
  {
   "property": "C76",
   "status": "proved",
   "theorems": [
    "C76_translation",
    "C76_one_reading",
    "C76_translation_iff",
    "C76_first_rule_refuted",
    "C76_digits_refuted"
   ],
   "note": "end to end for the compiled translator: totality, the reading and its uniqueness, so an iff; two simpler readings are refuted (C76_first_rule_refuted, C76_digits_refuted)"
  },
  {
   "property": "C77",
   "status": "proved",
   "theorems": [
    "C77_back_translation",
    "C77_one_reading",
    "C77_back_translation_iff",
    "C77_first_rule_refuted",
    "C77_unknown_refuted"
   ],
   "note": "end to end for the compiled translator backward: totality, the reading and its uniqueness, so an iff; simpler readings are refuted (C77_first_rule_refuted, C77_unknown_refuted)"
  },
  {
   "property": "C78",
   "status": "proved",
   "theorems": [
    "C78_repeated_rules_change_nothing",
    "C78_conditional_rules_refuted",
    "C78_tables_read_twice_refuted",
    "C78_always_same_text_refuted"
   ],
   "note": "end to end for the compiled translators, both directions and builds; conditional rules, whole tables read twice and always rules behind rivals refuted"
  },
  {
   "property": "C79",
   "status": "proved",
   "theorems": [
    "C79_only_the_text_of_rules",
    "C79_known_cells_become_text",
    "C79_known_input_becomes_text",
    "C79_any_input_refuted",
    "C79_prepunc_refuted"
   ],
   "note": "end to end for the compiled translator; signs and unknown cells excluded under stated conditions, both exceptions shown by refuted simple readings"
  }
 ]
}