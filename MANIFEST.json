{
 "claims": [
  {
   "property": "C01",
   "status": "proved",
   "theorems": [
    "C01_position_exact"
   ],
   "note": "every table built by a legal client, every offset"
  },
  {
   "property": "C02",
   "status": "proved",
   "theorems": [
    "C02_history_free",
    "C02_duplicate_newlines_refuted"
   ],
   "note": "proved for clients reporting each line start once in ascending order; duplicates refuted"
  },
  {
   "property": "C03",
   "status": "proved",
   "theorems": [
    "C03_lines_kept",
    "C03_resize_shrink_refuted"
   ],
   "note": "growth keeps lines; shrinking resize refuted"
  },
  {
   "property": "C04",
   "status": "proved",
   "theorems": [
    "C04_stream_contents",
    "C04_delivered_tokens_stay"
   ],
   "note": ""
  },
  {
   "property": "C05",
   "status": "proved",
   "theorems": [
    "C05_LA_value",
    "C05_LA_transparent",
    "C05_LA_before_first_token_refuted"
   ],
   "note": "LA before the first read refuted"
  },
  {
   "property": "C06",
   "status": "proved",
   "theorems": [
    "C06_replay",
    "C06_replay_plain"
   ],
   "note": ""
  },
  {
   "property": "C07",
   "status": "proved",
   "theorems": [
    "C07_regions_disjoint",
    "C07_regions_zeroed"
   ],
   "note": ""
  },
  {
   "property": "C08",
   "status": "partial",
   "theorems": [
    "C08_allocation_returns_partial",
    "C08_allocation_returns_refuted",
    "C08_exhaustion_refuted"
   ],
   "note": "full statement refuted: requests above the block size and more than the index capacity"
  },
  {
   "property": "C09",
   "status": "partial",
   "theorems": [
    "C09_regions_disjoint_partial",
    "C09_large_request_refuted"
   ],
   "note": "refuted for requests larger than a block"
  },
  {
   "property": "C10",
   "status": "partial",
   "theorems": [
    "C10_contains_exact_partial",
    "C10_contains_fresh_refuted"
   ],
   "note": "refuted on an allocator that never allocated"
  },
  {
   "property": "C11",
   "status": "proved",
   "theorems": [
    "C11_sequence_is_list",
    "C11_at_absent_index_refuted"
   ],
   "note": ""
  },
  {
   "property": "C12",
   "status": "partial",
   "theorems": [
    "C12_bits_independent_partial",
    "C12_size_zero_refuted",
    "C12_index_size_refuted"
   ],
   "note": "sizes > 0, whatever the undefined shift delivers; size 0 refuted"
  },
  {
   "property": "C13",
   "status": "proved",
   "theorems": [
    "C13_equality",
    "C13_order",
    "C13_resize_shrink_refuted"
   ],
   "note": "for arrays not shrunk by resize; shrinking refuted"
  },
  {
   "property": "C14",
   "status": "proved",
   "theorems": [
    "C14_accepts_exact",
    "C14_algebra_exact",
    "C14_string_exact",
    "C14_string_canonical",
    "C14_string_repeat_refuted"
   ],
   "note": "canonicity of the string constructor refuted for repeated characters (membership still exact)"
  },
  {
   "property": "C15",
   "status": "proved",
   "theorems": [
    "C15_negate_exact",
    "C15_negate_canonical_refuted"
   ],
   "note": "membership exact; the result may carry an empty trailing range"
  },
  {
   "property": "C16",
   "status": "proved",
   "theorems": [
    "C16_representations_agree",
    "C16_epsilon_flag_refuted"
   ],
   "note": "accepted characters agree; the epsilon flag of difference does not"
  },
  {
   "property": "C17",
   "status": "proved",
   "theorems": [
    "C17_seq_equality",
    "C17_table_equality"
   ],
   "note": ""
  },
  {
   "property": "C18",
   "status": "proved",
   "theorems": [
    "C18_branches_follow_transitions",
    "C18_outside_codec_refuted"
   ],
   "note": "for characters below the codec size, as stated"
  },
  {
   "property": "C19",
   "status": "proved",
   "theorems": [
    "C19_switch_follows_transitions",
    "C19_overlap_refuted"
   ],
   "note": ""
  },
  {
   "property": "C20",
   "status": "proved",
   "theorems": [
    "C20_union"
   ],
   "note": ""
  },
  {
   "property": "C21",
   "status": "proved",
   "theorems": [
    "C21_concatenation"
   ],
   "note": ""
  },
  {
   "property": "C22",
   "status": "partial",
   "theorems": [
    "C22_star_exact",
    "C22_star_partial",
    "C22_star_refuted"
   ],
   "note": "exact language always; it is the star if nothing leads back to the start state; (a* b)* is wrong in the code"
  },
  {
   "property": "C23",
   "status": "proved",
   "theorems": [
    "C23_literals"
   ],
   "note": ""
  },
  {
   "property": "C24",
   "status": "proved",
   "theorems": [
    "C24_determinise"
   ],
   "note": "for any order of the hash containers"
  },
  {
   "property": "C25",
   "status": "proved",
   "theorems": [
    "C25_deterministic"
   ],
   "note": ""
  },
  {
   "property": "C26",
   "status": "proved",
   "theorems": [
    "C26_complement"
   ],
   "note": ""
  },
  {
   "property": "C27",
   "status": "proved",
   "theorems": [
    "C27_intersection",
    "C27_difference"
   ],
   "note": ""
  },
  {
   "property": "C28",
   "status": "partial",
   "theorems": [
    "C28_minimise_partial",
    "C28_minimise_refuted",
    "C28_unused_rule_refuted"
   ],
   "note": "holds if every action occurs and some rejected word is a prefix of an accepted one; false in the code otherwise"
  },
  {
   "property": "C29",
   "status": "proved",
   "theorems": [
    "C29_remove_unarrivable",
    "C29_remove_inactive",
    "C29_start_removed_refuted"
   ],
   "note": "as long as the start state survives, as stated"
  },
  {
   "property": "C30",
   "status": "proved",
   "theorems": [
    "C30_back_to_nfa"
   ],
   "note": ""
  },
  {
   "property": "C31",
   "status": "proved",
   "theorems": [
    "C31_accepts_epsilon"
   ],
   "note": ""
  },
  {
   "property": "C32",
   "status": "proved",
   "theorems": [
    "C32_is_empty",
    "C32_is_empty_sound",
    "C32_empty_set_refuted"
   ],
   "note": "for every automaton built by the operations from non-empty character sets"
  },
  {
   "property": "C33",
   "status": "partial",
   "theorems": [
    "C33_min_length",
    "C33_max_length_sound",
    "C33_max_length_partial",
    "C33_star_of_empty_word_refuted"
   ],
   "note": "minLength exact; maxLength exact whenever it returns a number; unboundedness is over-reported in the code"
  },
  {
   "property": "C34",
   "status": "partial",
   "theorems": [
    "C34_longest_match_partial",
    "C34_longest_match_refuted",
    "C34_interpreter_agrees"
   ],
   "note": "needs the condition under which minimize() is right (C28), false of the code without it"
  },
  {
   "property": "C35",
   "status": "proved",
   "theorems": [
    "C35_reads_cover_input",
    "C35_read_token",
    "C35_trailing_continue_refuted"
   ],
   "note": "under the same condition on the rule set as C34"
  },
  {
   "property": "C36",
   "status": "proved",
   "theorems": [
    "C36_decode",
    "C36_filtered",
    "C36_nonchar_refuted"
   ],
   "note": "as stated, for scalar values that are no non-characters; for a non-character the read runs on"
  },
  {
   "property": "C37",
   "status": "partial",
   "theorems": [
    "C37_bounds_partial",
    "C37_terminates",
    "C37_truncated_refuted",
    "C37_invalid_refuted"
   ],
   "note": "exact set of byte sequences read in bounds; the full claim is false of the code"
  },
  {
   "property": "C38",
   "status": "proved",
   "theorems": [
    "C38_decode",
    "C38_any_units",
    "C38_lone_half_refuted"
   ],
   "note": ""
  },
  {
   "property": "C39",
   "status": "partial",
   "theorems": [
    "C39_transcode_partial",
    "C39_last_half_refuted"
   ],
   "note": "exact result; a low half at the very end is lost"
  },
  {
   "property": "C40",
   "status": "partial",
   "theorems": [
    "C40_exact",
    "C40_simple_partial",
    "C40_character_partial",
    "C40_junk_refuted",
    "C40_missing_refuted",
    "C40_character_refuted",
    "C40_reversed_refuted"
   ],
   "note": "exact set of ranges that come out right; the full claim is false of the code"
  },
  {
   "property": "C41",
   "status": "partial",
   "theorems": [
    "C41_exact",
    "C41_basic_partial",
    "C41_character_partial",
    "C41_refuted"
   ],
   "note": "exact set of ranges that come out right; the full claim is false of the code"
  },
  {
   "property": "C42",
   "status": "partial",
   "theorems": [
    "C42_first_complete_partial",
    "C42_first_complete_refuted"
   ],
   "note": "for grammars in which no rule or branch consists of code only and no operand of an operator expression is empty; false of the code otherwise"
  },
  {
   "property": "C43",
   "status": "partial",
   "theorems": [
    "C43_first_sound_partial",
    "C43_first_sound_refuted"
   ],
   "note": "for grammars in which nothing begins twice with the same token; false of the code otherwise"
  },
  {
   "property": "C44",
   "status": "partial",
   "theorems": [
    "C44_nullable_exact_partial",
    "C44_nullable_exact_refuted",
    "C44_operator_refuted"
   ],
   "note": "under the conditions of C42 and C43; false of the code otherwise"
  },
  {
   "property": "C45",
   "status": "proved",
   "theorems": [
    "C45_terminates"
   ],
   "note": "with an explicit bound on the passes and the depth, and the result does not depend on the bound"
  },
  {
   "property": "C46",
   "status": "partial",
   "theorems": [
    "C46_follow_complete_partial",
    "C46_follow_complete_refuted"
   ],
   "note": "under the conditions of C42"
  },
  {
   "property": "C47",
   "status": "partial",
   "theorems": [
    "C47_parser_sound_partial",
    "C47_whole_input_partial",
    "C47_inline_refuted"
   ],
   "note": "for grammars without try/recover whose inlined rules can be empty; false of the code when an inlined rule is skipped"
  },
  {
   "property": "C48",
   "status": "partial",
   "theorems": [
    "C48_parser_complete_partial",
    "C48_plus_refuted",
    "C48_optional_refuted",
    "C48_empty_branch_refuted",
    "C48_empty_rule_refuted",
    "C48_parenthesis_refuted",
    "C48_rollback_refuted",
    "C48_endless_refuted"
   ],
   "note": "under a stated stronger check of the same kind as the ones the tool makes; seven ways in which the tool keeps silent and a sentence is rejected"
  },
  {
   "property": "C49",
   "status": "proved",
   "theorems": [
    "C49_rollback",
    "C49_states"
   ],
   "note": ""
  },
  {
   "property": "C50",
   "status": "partial",
   "theorems": [
    "C50_mentioned_once",
    "C50_start_partial",
    "C50_start_refuted"
   ],
   "note": "for symbols whose first mention decides; false of the code otherwise"
  },
  {
   "property": "C51",
   "status": "proved",
   "theorems": [
    "C51_token_numbers",
    "C51_size_refuted"
   ],
   "note": "the values; TokenTypeSize is not always larger than all of them"
  },
  {
   "property": "C52",
   "status": "proved",
   "theorems": [
    "C52_kinds",
    "C52_dispatch",
    "C52_table_entries",
    "C52_names_refuted"
   ],
   "note": "for symbols with different class names; two symbols that differ in the case of the first letter clash"
  },
  {
   "property": "C53",
   "status": "partial",
   "theorems": [
    "C53_unescaped",
    "C53_all_spelled",
    "C53_plain",
    "C53_utf8_refuted",
    "C53_no_digits_refuted"
   ],
   "note": "exact for Latin-1 text; other text is read byte by byte"
  },
  {
   "property": "C54",
   "status": "partial",
   "theorems": [
    "C54_declarations_partial",
    "C54_encoding_first",
    "C54_declarations_refuted"
   ],
   "note": "the arithmetic of %input_encoding is wrong after a lexer kind declaration"
  },
  {
   "property": "C55",
   "status": "proved",
   "theorems": [
    "C55_lookup",
    "C55_model_lookup",
    "C55_unique_refuted"
   ],
   "note": ""
  },
  {
   "property": "C56",
   "status": "proved",
   "theorems": [
    "C56_alternatives_in_order",
    "C56_first_match"
   ],
   "note": ""
  },
  {
   "property": "C57",
   "status": "partial",
   "theorems": [
    "C57_copy_partial",
    "C57_disjoint",
    "C57_list_partial",
    "C57_condition_refuted",
    "C57_condition_exact",
    "C57_bare_code_refuted"
   ],
   "note": "for items without code that stands alone; conditions are dropped by the code"
  },
  {
   "property": "C58",
   "status": "partial",
   "theorems": [
    "C58_tree_partial",
    "C58_order",
    "C58_unique",
    "C58_complete_partial",
    "C58_decides_partial",
    "C58_defined_partial",
    "C58_ternary_refuted",
    "C58_conditional_refuted",
    "C58_postfix_refuted",
    "C58_start_refuted"
   ],
   "note": "for tables whose ternary operators are looser than all others and come without postfix operators; the code is wrong for nested ternary operators"
  },
  {
   "property": "C59",
   "status": "partial",
   "theorems": [
    "C59_all_generated",
    "C59_bases_first_partial",
    "C59_bases_first_refuted",
    "C59_once_refuted"
   ],
   "note": "false of the code for nested operator expressions and for two rules of one symbol"
  },
  {
   "property": "C60",
   "status": "proved",
   "theorems": [
    "C60_constructions_end"
   ],
   "note": ""
  },
  {
   "property": "C61",
   "status": "proved",
   "theorems": [
    "C61_smallest",
    "C61_any_smallest"
   ],
   "note": ""
  },
  {
   "property": "C62",
   "status": "partial",
   "theorems": [
    "C62_regexp_partial",
    "C62_star_refuted",
    "C62_named_refuted"
   ],
   "note": "for expressions without the two constructs the code translates wrongly"
  },
  {
   "property": "C63",
   "status": "partial",
   "theorems": [
    "C63_lookahead_partial",
    "C63_token_ends_before_lookahead",
    "C63_variable_lookahead_refuted"
   ],
   "note": "one unit per character; lookahead of one positive length"
  },
  {
   "property": "C64",
   "status": "partial",
   "theorems": [
    "C64_barrier_partial",
    "C64_barrier_not_in_text",
    "C64_variable_barrier_refuted"
   ],
   "note": "one unit per character; barrier of one positive length"
  },
  {
   "property": "C65",
   "status": "partial",
   "theorems": [
    "C65_any",
    "C65_any_utf8_partial",
    "C65_any_utf8_refuted",
    "C65_any_utf16_partial",
    "C65_any_utf16_refuted"
   ],
   "note": "exact for one-unit encodings; exact languages for UTF-8 and UTF-16, where the claim is false of the code"
  },
  {
   "property": "C66",
   "status": "partial",
   "theorems": [
    "C66_word_partial",
    "C66_latin1_refuted",
    "C66_utf16_refuted"
   ],
   "note": "false of the code for Latin-1 and for UTF-16 outside the basic plane"
  },
  {
   "property": "C67",
   "status": "proved",
   "theorems": [
    "C67_range",
    "C67_collection"
   ],
   "note": "a collection whose members come out right as single characters (C40, C41)"
  },
  {
   "property": "C68",
   "status": "proved",
   "theorems": [
    "C68_recovery",
    "C68_recovery_ends"
   ],
   "note": ""
  },
  {
   "property": "C69",
   "status": "partial",
   "theorems": [
    "C69_blocked_partial",
    "C69_blocked_refuted"
   ],
   "note": "without operator expressions; false of the code with them"
  },
  {
   "property": "C70",
   "status": "partial",
   "theorems": [
    "C70_exact_language_partial"
   ],
   "note": "under the conditions of C47 and C48"
  },
  {
   "property": "C71",
   "status": "partial",
   "theorems": [
    "C71_operands_checked_partial",
    "C71_operands_checked_refuted"
   ],
   "note": "for grammars in which no rule or branch consists of code only; false of the code otherwise"
  },
  {
   "property": "C72",
   "status": "proved",
   "theorems": [
    "C72_range_literal"
   ],
   "note": ""
  },
  {
   "property": "C73",
   "status": "partial",
   "theorems": [
    "C73_same_parse",
    "C73_tree_partial",
    "C73_exact_partial",
    "C73_nested",
    "C73_rollback_refuted"
   ],
   "note": "Operator expressions: C58. Not covered: try/recover, rules with arguments, annotations inside the first part of try/rollback (false there: C73_rollback_refuted). Uniqueness needs the conditions of C70 and loops whose body is not empty."
  },
  {
   "property": "C74",
   "status": "proved",
   "theorems": [
    "C74_errors_exact",
    "C74_traversals_end",
    "C74_cut_refuted"
   ],
   "note": "Errors are exact; that the traversals after an error end is false (C74_cut_refuted)."
  },
  {
   "property": "C75",
   "status": "partial",
   "theorems": [
    "C75_names_partial",
    "C75_temporary_token_refuted",
    "C75_token_and_list_refuted",
    "C75_same_arguments_refuted",
    "C75_inlined_argument_refuted",
    "C75_two_rules_refuted"
   ],
   "note": "One rule for the symbol, no operator expressions; false without the conditions of C75_names_partial, which no checker ensures."
  },
  {
   "property": "C76",
   "status": "partial",
   "theorems": [
    "C76_visits_all_partial",
    "C76_parameter_named_partial",
    "C76_parameter_unnamed_refuted"
   ],
   "note": "No operator symbols, one rule for a symbol; that the methods compile is false in general (C76_parameter_unnamed_refuted)."
  },
  {
   "property": "C77",
   "status": "partial",
   "theorems": [
    "C77_read_is_viable_partial",
    "C77_error_position_partial",
    "C77_inline_refuted"
   ],
   "note": "Not covered: try/recover; every node of the grammar has to describe some word. Inlined rules must be able to be empty (else false: C77_inline_refuted)."
  },
  {
   "property": "C78",
   "status": "partial",
   "theorems": [
    "C78_parser_ends_partial",
    "C78_verdict_partial",
    "C78_left_recursion_refuted"
   ],
   "note": "For grammars without left recursion and with loop bodies that read something; the tool does not report all others (C78_left_recursion_refuted). The verdict needs the conditions of C70."
  },
  {
   "property": "C79",
   "status": "proved",
   "theorems": [
    "C79_code_block",
    "C79_unclosed_block",
    "C79_first_close_refuted"
   ],
   "note": "The end of a block as the code defines it; not the first :] (refuted)."
  },
  {
   "property": "C80",
   "status": "proved",
   "theorems": [
    "C80_code_positions",
    "C80_code_lines"
   ],
   "note": "Columns for files without lexer rules."
  },
  {
   "property": "C81",
   "status": "proved",
   "theorems": [
    "C81_token_lines",
    "C81_lone_cr_refuted"
   ],
   "note": "False with lone CR (refuted)."
  },
  {
   "property": "C82",
   "status": "proved",
   "theorems": [
    "C82_arguments",
    "C82_nested_brackets_refuted",
    "C82_argument_columns_refuted"
   ],
   "note": "False for arguments with brackets; the column of a line directive is wrong (both refuted)."
  },
  {
   "property": "C83",
   "status": "proved",
   "theorems": [
    "C83_string",
    "C83_unclosed_string",
    "C83_backslash_refuted"
   ],
   "note": "False for a backslash before the closing quote (refuted)."
  },
  {
   "property": "C84",
   "status": "proved",
   "theorems": [
    "C84_variable_type",
    "C84_short_type_refuted"
   ],
   "note": "A type of fewer than two characters is read out of bounds (refuted)."
  },
  {
   "property": "C85",
   "status": "proved",
   "theorems": [
    "C85_gaps"
   ],
   "note": ""
  },
  {
   "property": "C86",
   "status": "proved",
   "theorems": [
    "C86_words",
    "C86_numbers",
    "C86_keywords"
   ],
   "note": ""
  },
  {
   "property": "C87",
   "status": "proved",
   "theorems": [
    "C87_meaningless",
    "C87_all_bytes_read",
    "C87_lexer_rules_refuted",
    "C87_byte_255_refuted"
   ],
   "note": "False in lexer rules and for the byte 255 (refuted)."
  },
  {
   "property": "C88",
   "status": "proved",
   "theorems": [
    "C88_scanning_ends"
   ],
   "note": ""
  },
  {
   "property": "C89",
   "status": "proved",
   "theorems": [
    "C89_accepted_is_sentence"
   ],
   "note": ""
  },
  {
   "property": "C90",
   "status": "proved",
   "theorems": [
    "C90_reading_ends"
   ],
   "note": ""
  },
  {
   "property": "C91",
   "status": "proved",
   "theorems": [
    "C91_error_place",
    "C91_error_local",
    "C91_sentence_refuted"
   ],
   "note": "That all sentences are accepted is false (refuted)."
  },
  {
   "property": "C92",
   "status": "proved",
   "theorems": [
    "C92_file_read",
    "C92_one_meaning",
    "C92_condition_refuted",
    "C92_post_refuted"
   ],
   "note": "Under the stated conditions; false for conditions in operands of @ and for %post with priority 0 and no associativity (refuted)."
  },
  {
   "property": "C93",
   "status": "proved",
   "theorems": [
    "C93_rules_read"
   ],
   "note": ""
  },
  {
   "property": "C94",
   "status": "proved",
   "theorems": [
    "C94_graph",
    "C94_undeclared_refuted"
   ],
   "note": "False of files that use tokens they do not declare (refuted)."
  },
  {
   "property": "C95",
   "status": "partial",
   "theorems": [
    "C95_accepted_partial"
   ],
   "note": "For files that respect the listed conditions; false without them (C47)."
  },
  {
   "property": "C96",
   "status": "partial",
   "theorems": [
    "C96_exact_partial",
    "C96_ends_partial",
    "C96_verdict_partial"
   ],
   "note": "For careful grammars; false of others (C48)."
  },
  {
   "property": "C97",
   "status": "partial",
   "theorems": [
    "C97_sets_end",
    "C97_first_partial"
   ],
   "note": "Termination is proved in full; completeness of FIRST without branches of code only and without empty operands, false with them (C42)."
  },
  {
   "property": "C98",
   "status": "proved",
   "theorems": [
    "C98_symbols",
    "C98_silent",
    "C98_types",
    "C98_unnoticed_refuted",
    "C98_name_refuted"
   ],
   "note": "What operators are applied to and all variables but the first are not looked at, and a type may be reported under the name of the variable (refuted)."
  },
  {
   "property": "C99",
   "status": "proved",
   "theorems": [
    "C99_tokens",
    "C99_declared",
    "C99_unnoticed_refuted"
   ],
   "note": "The tokens of operators are not looked at (refuted)."
  },
  {
   "property": "C100",
   "status": "proved",
   "theorems": [
    "C100_options",
    "C100_information",
    "C100_unknown",
    "C100_order_refuted"
   ],
   "note": "Options do not commute: --new-visitor also switches output off (refuted)."
  },
  {
   "property": "C101",
   "status": "proved",
   "theorems": [
    "C101_status",
    "C101_all_or_nothing",
    "C101_files"
   ],
   "note": "The list of files is for runs without --new-visitor."
  },
  {
   "property": "C102",
   "status": "proved",
   "theorems": [
    "C102_includes",
    "C102_visitor",
    "C102_includes_refuted"
   ],
   "note": "Proved as an equivalence; not all successful runs leave files that fit together (refuted)."
  },
  {
   "property": "C103",
   "status": "partial",
   "theorems": [
    "C103_verdict_partial"
   ],
   "note": "Conditions of C96, which the tool does not check, remain."
  },
  {
   "property": "C104",
   "status": "proved",
   "theorems": [
    "C104_text",
    "C104_checked",
    "C104_operators_refuted",
    "C104_symbols_refuted",
    "C104_inlining_refuted"
   ],
   "note": "The conditions are needed: without an operator after an operand, without a rule for the operand, or with a cycle of inlined symbols there is no such text."
  },
  {
   "property": "C105",
   "status": "proved",
   "theorems": [
    "C105_execution"
   ],
   "note": ""
  },
  {
   "property": "C106",
   "status": "partial",
   "theorems": [
    "C106_verdict_partial"
   ],
   "note": "Conditions of C103 and C104 that the tool does not check remain."
  },
  {
   "property": "C107",
   "status": "proved",
   "theorems": [
    "C107_scanned",
    "C107_without_directives",
    "C107_unambiguous"
   ],
   "note": ""
  },
  {
   "property": "C108",
   "status": "proved",
   "theorems": [
    "C108_written",
    "C108_scanned",
    "C108_end_refuted"
   ],
   "note": "The condition on lexer sections is needed: after a section that is empty or ends with %fail, %enter or %leave no declaration can be written (refuted)."
  },
  {
   "property": "C109",
   "status": "partial",
   "theorems": [
    "C109_read",
    "C109_one_file",
    "C109_verdict_partial"
   ],
   "note": "Reading is proved in full; the verdict has the conditions of C106 that the tool does not check."
  },
  {
   "property": "C110",
   "status": "partial",
   "theorems": [
    "C110_rule_partial",
    "C110_ways",
    "C110_dump_partial",
    "C110_refuted",
    "C110_branch_refuted"
   ],
   "note": "Proved but for rules with operators and places that have nothing but code: what is printed there is not a rule (refuted)."
  },
  {
   "property": "C111",
   "status": "partial",
   "theorems": [
    "C111_loaded_partial",
    "C111_utf8_refuted"
   ],
   "note": "Loading is proved in full; the language is right where the ranges are those that C40 and C41 translate correctly, which not all ranges of the data files are (refuted)."
  },
  {
   "property": "C112",
   "status": "partial",
   "theorems": [
    "C112_names_partial",
    "C112_states_refuted",
    "C112_merged_refuted",
    "C112_written_refuted"
   ],
   "note": "The meaning of names after loading is proved; before the first plain %lexer no class is known, earlier definitions are changed by loading, and ascii-range and latin1-range cannot be written (refuted)."
  },
  {
   "property": "C113",
   "status": "partial",
   "theorems": [
    "C113_nodes",
    "C113_shape",
    "C113_text",
    "C113_long",
    "C113_last_refuted",
    "C113_empty_refuted"
   ],
   "note": "Lines and shape are proved in full; texts of more than 31 characters lose their last one, and a node without tokens may show all the rest of the text (refuted)."
  },
  {
   "property": "C114",
   "status": "partial",
   "theorems": [
    "C114_utf8",
    "C114_utf16",
    "C114_lookahead_refuted",
    "C114_surrogate_refuted"
   ],
   "note": "Proved for all lexers if the text given back for lookaheads and barriers has one unit per character, and for UTF-8 to UTF-16 without characters outside the basic plane; refuted otherwise: lookaheads count characters but move the position by units, and the UTF-8 to UTF-16 iterator keeps a pending half when the lexer goes back."
  },
  {
   "property": "C115",
   "status": "partial",
   "theorems": [
    "C115_next",
    "C115_only",
    "C115_in_turn_partial",
    "C115_in_turn_refuted",
    "C115_start_refuted"
   ],
   "note": "Tokens and sets are proved in full (rules under the conditions of C34, one unit per character; with C114 for encoded text); the code for leaving and entering runs in turn with at most one change per action; refuted for two changes in one action, and for the first set, whose code for entering does not run."
  },
  {
   "property": "C116",
   "status": "partial",
   "theorems": [
    "C116_follow_sound_partial",
    "C116_follow_exact_partial",
    "C116_follow_sound_refuted",
    "C116_unused_refuted"
   ],
   "note": "under the conditions of C43 and if every rule is used in some derivation; with C46 the sets are then exact; false of the code otherwise (both conditions refuted by a witness)"
  },
  {
   "property": "C117",
   "status": "partial",
   "theorems": [
    "C117_same_begin_found_partial",
    "C117_begin_after_found_partial",
    "C117_begin_after_exact_partial",
    "C117_missed_refuted",
    "C117_false_alarm_refuted",
    "C117_false_branch_refuted"
   ],
   "note": "Under the conditions of C42 every FIRST/FIRST clash and every FIRST/FOLLOW clash of an item that is looked at is reported; under those of C116 nothing else is. Refuted: clashes after x+ and after optional items are not looked for; warnings without a clash where two branches begin with the same token."
  },
  {
   "property": "C118",
   "status": "partial",
   "theorems": [
    "C118_checks_end",
    "C118_follow_check_exact",
    "C118_null_refuted"
   ],
   "note": "Proved for all checks but FIRST/FOLLOW; this one follows a null pointer exactly if the right branch of an alternative is code only (refuted by A | [: code :]), and ends otherwise."
  },
  {
   "property": "C119",
   "status": "partial",
   "theorems": [
    "C119_noted_exact",
    "C119_ends",
    "C119_explained_partial",
    "C119_said_exact_partial",
    "C119_explained_refuted"
   ],
   "note": "What is noted is exactly where FOLLOW sets come from, for all grammars. Something is said about each token if there are no operators; refuted with operators (A B* -> base under the operator B: nothing is said). Exactness of what is said: where no nodes were added."
  },
  {
   "property": "C120",
   "status": "partial",
   "theorems": [
    "C120_calls_reported",
    "C120_reported_partial",
    "C120_reported_refuted"
   ],
   "note": "Every failing call of a rule outside try blocks is reported. A function made of telling parts fails silently only at its first token or, for a start symbol, at a token after its rule. Refuted in general: wrong first token, text after the end, and a choice none of whose branches fits are rejected without a message."
  },
  {
   "property": "C121",
   "status": "partial",
   "theorems": [
    "C121_lines_partial",
    "C121_lines_one_way",
    "C121_nul_refuted",
    "C121_no_reset_refuted"
   ],
   "note": "For texts without NUL characters; with them a line looks shorter when peeked at. The need of the reset is shown too."
  },
  {
   "property": "C122",
   "status": "partial",
   "theorems": [
    "C122_success_quiet_partial",
    "C122_depth_partial",
    "C122_one_refuted",
    "C122_cascade_refuted"
   ],
   "note": "Success is quiet unless operator expressions occur with try blocks (C69). Failure gives at most as many messages as calls are nested; one message only is refuted, and with recursion there is no bound."
  },
  {
   "property": "C123",
   "status": "partial",
   "theorems": [
    "C123_recovered_partial",
    "C123_recovered_refuted"
   ],
   "note": "For a call that has read something and whose rules are made of telling parts; a wrong token written in the try block itself is skipped without a message, and the text is accepted."
  },
  {
   "property": "C124",
   "status": "partial",
   "theorems": [
    "C124_functions_partial",
    "C124_overrides",
    "C124_names_refuted",
    "C124_new_refuted"
   ],
   "note": "For symbols whose class names differ; refuted for foo and Foo, and for an operator symbol expr beside binaryExpr. With --inherit-default-visitor nothing defined belongs to the class, whatever the grammar."
  },
  {
   "property": "C125",
   "status": "partial",
   "theorems": [
    "C125_identifier_partial",
    "C125_distinct",
    "C125_identifier_refuted",
    "C125_languages_refuted"
   ],
   "note": "Exactly when a guard is an identifier; refuted for a language with a digit in front, and for the lexer header (whose language is not cleaned) of a language like my-lang. Guards of one run differ; guards of two languages may be the same (a-b and a_b; the visitor of foo and the parser of foo_visitor)."
  },
  {
   "property": "C126",
   "status": "partial",
   "theorems": [
    "C126_token_text",
    "C126_expected_partial",
    "C126_expected_refuted"
   ],
   "note": "tokenText: for all declarations. expectedToken: for descriptions without backslashes and quotes; refuted otherwise, since the description is not escaped there (an escaped quote gives another text, a backslash at the end breaks the C++)."
  },
  {
   "property": "C127",
   "status": "partial",
   "theorems": [
    "C127_numbers",
    "C127_order",
    "C127_stable_refuted"
   ],
   "note": "All but the last sentence; numbers change when a token is added that comes earlier in the alphabet."
  }
 ]
}