{
 "claims": [
  {
   "property": "C01",
   "status": "proved",
   "theorems": [
    "C01_lossless"
   ],
   "note": ""
  },
  {
   "property": "C02",
   "status": "proved",
   "theorems": [
    "C02_longest_match"
   ],
   "note": ""
  },
  {
   "property": "C03",
   "status": "proved",
   "theorems": [
    "C03_spaced"
   ],
   "note": ""
  },
  {
   "property": "C04",
   "status": "proved",
   "theorems": [
    "C04_newline_separates",
    "C04_no_separator_refuted"
   ],
   "note": ""
  },
  {
   "property": "C05",
   "status": "proved",
   "theorems": [
    "C05_terminates",
    "C05_depth",
    "C05_diverge_meaning",
    "C05_never_ends",
    "C05_cause",
    "C05_bang_only_refuted"
   ],
   "note": ""
  },
  {
   "property": "C06",
   "status": "proved",
   "theorems": [
    "C06_accounted"
   ],
   "note": ""
  },
  {
   "property": "C07",
   "status": "proved",
   "theorems": [
    "C07_precedence",
    "C07_let_operand_refuted"
   ],
   "note": ""
  },
  {
   "property": "C08",
   "status": "proved",
   "theorems": [
    "C08_parses"
   ],
   "note": ""
  },
  {
   "property": "C09",
   "status": "proved",
   "theorems": [
    "C09_display",
    "C09_float_refuted",
    "C09_float_field_refuted",
    "C09_int_field_refuted",
    "C09_let_operand_refuted"
   ],
   "note": ""
  },
  {
   "property": "C10",
   "status": "proved",
   "theorems": [
    "C10_collected"
   ],
   "note": ""
  },
  {
   "property": "C11",
   "status": "proved",
   "theorems": [
    "C11_add",
    "C11_sub",
    "C11_mul",
    "C11_neg",
    "C11_xor",
    "C11_or",
    "C11_and",
    "C11_not",
    "C11_shl",
    "C11_shr"
   ],
   "note": ""
  },
  {
   "property": "C12",
   "status": "proved",
   "theorems": [
    "C12_division"
   ],
   "note": ""
  },
  {
   "property": "C13",
   "status": "proved",
   "theorems": [
    "C13_promotes",
    "C13_nearest",
    "C13_concatenates",
    "C13_arithmetic_mismatch",
    "C13_bit_mismatch",
    "C13_aborts"
   ],
   "note": ""
  },
  {
   "property": "C14",
   "status": "proved",
   "theorems": [
    "C14_laws",
    "C14_integers",
    "C14_strings",
    "C14_byte_order_is_total",
    "C14_floats",
    "C14_eq_vs_order_refuted"
   ],
   "note": ""
  },
  {
   "property": "C15",
   "status": "proved",
   "theorems": [
    "C15_structural",
    "C15_reflexive",
    "C15_symmetric",
    "C15_transitive"
   ],
   "note": ""
  },
  {
   "property": "C16",
   "status": "proved",
   "theorems": [
    "C16_short_circuit"
   ],
   "note": ""
  },
  {
   "property": "C17",
   "status": "proved",
   "theorems": [
    "C17_conditional",
    "C17_empty_branch",
    "C17_only_false_and_null"
   ],
   "note": ""
  },
  {
   "property": "C18",
   "status": "proved",
   "theorems": [
    "C18_sequence",
    "C18_single",
    "C18_empty",
    "C18_all_or_first_failure"
   ],
   "note": ""
  },
  {
   "property": "C19",
   "status": "proved",
   "theorems": [
    "C19_frame",
    "C19_block_frame"
   ],
   "note": ""
  },
  {
   "property": "C20",
   "status": "proved",
   "theorems": [
    "C20_let",
    "C20_read",
    "C20_until_rebound"
   ],
   "note": ""
  },
  {
   "property": "C21",
   "status": "proved",
   "theorems": [
    "C21_array_index",
    "C21_map_index",
    "C21_other_index",
    "C21_operand_failure",
    "C21_field",
    "C21_unchanged"
   ],
   "note": ""
  },
  {
   "property": "C22",
   "status": "proved",
   "theorems": [
    "C22_map_literal"
   ],
   "note": ""
  },
  {
   "property": "C23",
   "status": "proved",
   "theorems": [
    "C23_one_way_or_the_other",
    "C23_array",
    "C23_argument_failure",
    "C23_binary",
    "C23_unary"
   ],
   "note": ""
  },
  {
   "property": "C24",
   "status": "proved",
   "theorems": [
    "C24_expression",
    "C24_block"
   ],
   "note": ""
  },
  {
   "property": "C25",
   "status": "proved",
   "theorems": [
    "C25_isolated"
   ],
   "note": ""
  },
  {
   "property": "C26",
   "status": "proved",
   "theorems": [
    "C26_reported",
    "C26_only_comparisons",
    "C26_results"
   ],
   "note": ""
  },
  {
   "property": "C27",
   "status": "proved",
   "theorems": [
    "C27_verdict",
    "C27_offline_passes"
   ],
   "note": ""
  },
  {
   "property": "C28",
   "status": "proved",
   "theorems": [
    "C28_request",
    "C28_unknown",
    "C28_builtin"
   ],
   "note": ""
  },
  {
   "property": "C29",
   "status": "proved",
   "theorems": [
    "C29_format",
    "C29_determined"
   ],
   "note": ""
  },
  {
   "property": "C30",
   "status": "proved",
   "theorems": [
    "C30_message",
    "C30_exists",
    "C30_unique"
   ],
   "note": ""
  },
  {
   "property": "C31",
   "status": "proved",
   "theorems": [
    "C31_length",
    "C31_append"
   ],
   "note": ""
  },
  {
   "property": "C32",
   "status": "proved",
   "theorems": [
    "C32_print"
   ],
   "note": ""
  },
  {
   "property": "C33",
   "status": "proved",
   "theorems": [
    "C33_parts",
    "C33_truncated",
    "C33_localhost",
    "C33_every"
   ],
   "note": ""
  },
  {
   "property": "C34",
   "status": "proved",
   "theorems": [
    "C34_round_trip"
   ],
   "note": ""
  },
  {
   "property": "C35",
   "status": "proved",
   "theorems": [
    "C35_parsed",
    "C35_unique"
   ],
   "note": ""
  },
  {
   "property": "C36",
   "status": "proved",
   "theorems": [
    "C36_wire",
    "C36_read_back",
    "C36_no_line_feed"
   ],
   "note": ""
  },
  {
   "property": "C37",
   "status": "proved",
   "theorems": [
    "C37_lines",
    "C37_line_count",
    "C37_no_injection_refuted"
   ],
   "note": ""
  },
  {
   "property": "C38",
   "status": "proved",
   "theorems": [
    "C38_form",
    "C38_decoded_uniquely"
   ],
   "note": ""
  },
  {
   "property": "C39",
   "status": "proved",
   "theorems": [
    "C39_parsed",
    "C39_invalid",
    "C39_broken"
   ],
   "note": ""
  },
  {
   "property": "C40",
   "status": "proved",
   "theorems": [
    "C40_entries",
    "C40_json"
   ],
   "note": ""
  },
  {
   "property": "C41",
   "status": "proved",
   "theorems": [
    "C41_json",
    "C41_all_json_refuted"
   ],
   "note": ""
  },
  {
   "property": "C42",
   "status": "proved",
   "theorems": [
    "C42_hangs",
    "C42_never_ends",
    "C42_terminates"
   ],
   "note": ""
  },
  {
   "property": "C43",
   "status": "proved",
   "theorems": [
    "C43_outcome"
   ],
   "note": ""
  },
  {
   "property": "C44",
   "status": "proved",
   "theorems": [
    "C44_order"
   ],
   "note": ""
  },
  {
   "property": "C45",
   "status": "proved",
   "theorems": [
    "C45_result",
    "C45_goes_on",
    "C45_ends"
   ],
   "note": ""
  },
  {
   "property": "C46",
   "status": "proved",
   "theorems": [
    "C46_decoded",
    "C46_distinct"
   ],
   "note": ""
  },
  {
   "property": "C47",
   "status": "proved",
   "theorems": [
    "C47_decoded",
    "C47_text"
   ],
   "note": ""
  },
  {
   "property": "C48",
   "status": "proved",
   "theorems": [
    "C48_framed",
    "C48_unique"
   ],
   "note": ""
  },
  {
   "property": "C49",
   "status": "proved",
   "theorems": [
    "C49_schema",
    "C49_nothing_lost"
   ],
   "note": ""
  },
  {
   "property": "C50",
   "status": "proved",
   "theorems": [
    "C50_stamped"
   ],
   "note": ""
  },
  {
   "property": "C51",
   "status": "proved",
   "theorems": [
    "C51_parts",
    "C51_lost"
   ],
   "note": ""
  },
  {
   "property": "C52",
   "status": "proved",
   "theorems": [
    "C52_exact",
    "C52_bounds"
   ],
   "note": ""
  },
  {
   "property": "C53",
   "status": "proved",
   "theorems": [
    "C53_any_order"
   ],
   "note": ""
  },
  {
   "property": "C54",
   "status": "proved",
   "theorems": [
    "C54_accepted",
    "C54_rejected",
    "C54_message"
   ],
   "note": ""
  },
  {
   "property": "C55",
   "status": "proved",
   "theorems": [
    "C55_source_text"
   ],
   "note": ""
  },
  {
   "property": "C56",
   "status": "proved",
   "theorems": [
    "C56_numbers",
    "C56_at_most",
    "C56_exactly",
    "C56_bounded",
    "C56_onward",
    "C56_ends"
   ],
   "note": ""
  },
  {
   "property": "C57",
   "status": "proved",
   "theorems": [
    "C57_stopped"
   ],
   "note": ""
  },
  {
   "property": "C58",
   "status": "proved",
   "theorems": [
    "C58_alone",
    "C58_isolated"
   ],
   "note": ""
  },
  {
   "property": "C59",
   "status": "proved",
   "theorems": [
    "C59_file",
    "C59_failed"
   ],
   "note": ""
  },
  {
   "property": "C60",
   "status": "proved",
   "theorems": [
    "C60_printed",
    "C60_schedule"
   ],
   "note": ""
  },
  {
   "property": "C61",
   "status": "proved",
   "theorems": [
    "C61_each_once",
    "C61_tests"
   ],
   "note": ""
  },
  {
   "property": "C62",
   "status": "proved",
   "theorems": [
    "C62_result",
    "C62_exit",
    "C62_parts",
    "C62_syntax_error"
   ],
   "note": ""
  },
  {
   "property": "C63",
   "status": "proved",
   "theorems": [
    "C63_round_trip",
    "C63_well_formed"
   ],
   "note": ""
  },
  {
   "property": "C64",
   "status": "proved",
   "theorems": [
    "C64_integer",
    "C64_float",
    "C64_two_dots",
    "C64_string"
   ],
   "note": ""
  },
  {
   "property": "C65",
   "status": "proved",
   "theorems": [
    "C65_expression",
    "C65_block",
    "C65_source",
    "C65_start",
    "C65_parts"
   ],
   "note": ""
  },
  {
   "property": "C66",
   "status": "proved",
   "theorems": [
    "C66_bad_source",
    "C66_bad_setup",
    "C66_lost_source",
    "C66_lost_setup",
    "C66_unknown_test",
    "C66_named",
    "C66_all"
   ],
   "note": ""
  },
  {
   "property": "C67",
   "status": "proved",
   "theorems": [
    "C67_distinct",
    "C67_ordered",
    "C67_digits",
    "C67_started"
   ],
   "note": ""
  },
  {
   "property": "C68",
   "status": "proved",
   "theorems": [
    "C68_expression",
    "C68_block"
   ],
   "note": ""
  },
  {
   "property": "C69",
   "status": "proved",
   "theorems": [
    "C69_block",
    "C69_expression",
    "C69_body_loops_refuted"
   ],
   "note": ""
  },
  {
   "property": "C70",
   "status": "proved",
   "theorems": [
    "C70_no_abort",
    "C70_returns",
    "C70_operators_refuted"
   ],
   "note": ""
  },
  {
   "property": "C71",
   "status": "proved",
   "theorems": [
    "C71_files",
    "C71_directory",
    "C71_any_files_refuted"
   ],
   "note": ""
  },
  {
   "property": "C72",
   "status": "proved",
   "theorems": [
    "C72_balanced",
    "C72_count"
   ],
   "note": ""
  },
  {
   "property": "C73",
   "status": "proved",
   "theorems": [
    "C73_integer",
    "C73_float",
    "C73_bool",
    "C73_smallest_refuted",
    "C73_whole_refuted"
   ],
   "note": ""
  },
  {
   "property": "C74",
   "status": "proved",
   "theorems": [
    "C74_read",
    "C74_sent"
   ],
   "note": ""
  },
  {
   "property": "C75",
   "status": "proved",
   "theorems": [
    "C75_prefix",
    "C75_goes_through",
    "C75_failure",
    "C75_unreadable",
    "C75_one_write",
    "C75_multipart",
    "C75_failure_lost_refuted"
   ],
   "note": ""
  },
  {
   "property": "C76",
   "status": "proved",
   "theorems": [
    "C76_connect",
    "C76_encrypted",
    "C76_ends"
   ],
   "note": ""
  },
  {
   "property": "C77",
   "status": "proved",
   "theorems": [
    "C77_seen",
    "C77_answered"
   ],
   "note": ""
  },
  {
   "property": "C78",
   "status": "proved",
   "theorems": [
    "C78_received",
    "C78_alike",
    "C78_at_once",
    "C78_interrupted"
   ],
   "note": ""
  },
  {
   "property": "C79",
   "status": "proved",
   "theorems": [
    "C79_ended",
    "C79_returns",
    "C79_failed",
    "C79_waits"
   ],
   "note": ""
  },
  {
   "property": "C80",
   "status": "proved",
   "theorems": [
    "C80_reason"
   ],
   "note": ""
  },
  {
   "property": "C81",
   "status": "proved",
   "theorems": [
    "C81_shown",
    "C81_debug",
    "C81_debug_tells",
    "C81_show_tells",
    "C81_show_tells_refuted"
   ],
   "note": ""
  },
  {
   "property": "C82",
   "status": "proved",
   "theorems": [
    "C82_cause",
    "C82_first"
   ],
   "note": ""
  },
  {
   "property": "C83",
   "status": "proved",
   "theorems": [
    "C83_shown",
    "C83_debug",
    "C83_shown_tells",
    "C83_debug_tells"
   ],
   "note": ""
  },
  {
   "property": "C84",
   "status": "proved",
   "theorems": [
    "C84_shown",
    "C84_tells"
   ],
   "note": ""
  },
  {
   "property": "C85",
   "status": "proved",
   "theorems": [
    "C85_cause",
    "C85_first"
   ],
   "note": ""
  },
  {
   "property": "C86",
   "status": "proved",
   "theorems": [
    "C86_order",
    "C86_end",
    "C86_statistics_last",
    "C86_all_order",
    "C86_all_threads"
   ],
   "note": ""
  },
  {
   "property": "C87",
   "status": "proved",
   "theorems": [
    "C87_files",
    "C87_kept",
    "C87_all_files",
    "C87_all_kept",
    "C87_readable"
   ],
   "note": ""
  },
  {
   "property": "C88",
   "status": "proved",
   "theorems": [
    "C88_unreadable",
    "C88_crash",
    "C88_no_threads",
    "C88_uncreatable",
    "C88_syntax",
    "C88_setup",
    "C88_unknown",
    "C88_named",
    "C88_all",
    "C88_verdict_refuted"
   ],
   "note": ""
  },
  {
   "property": "C89",
   "status": "proved",
   "theorems": [
    "C89_bounded",
    "C89_named_ends",
    "C89_all_ends"
   ],
   "note": ""
  },
  {
   "property": "C90",
   "status": "proved",
   "theorems": [
    "C90_pace",
    "C90_start",
    "C90_connected",
    "C90_failed",
    "C90_deadline",
    "C90_first",
    "C90_timeout",
    "C90_onward",
    "C90_finite",
    "C90_untimed"
   ],
   "note": ""
  },
  {
   "property": "C91",
   "status": "proved",
   "theorems": [
    "C91_session",
    "C91_lines",
    "C91_lines_unique",
    "C91_pieces",
    "C91_eval"
   ],
   "note": ""
  },
  {
   "property": "C92",
   "status": "proved",
   "theorems": [
    "C92_named",
    "C92_named_end",
    "C92_all",
    "C92_all_end",
    "C92_setup",
    "C92_named_status",
    "C92_all_status"
   ],
   "note": ""
  },
  {
   "property": "C93",
   "status": "proved",
   "theorems": [
    "C93_caught",
    "C93_stops",
    "C93_before",
    "C93_killed",
    "C93_uncaught"
   ],
   "note": ""
  },
  {
   "property": "C94",
   "status": "proved",
   "theorems": [
    "C94_quiet",
    "C94_plain",
    "C94_nowhere",
    "C94_bounded",
    "C94_named_ends",
    "C94_all_ends"
   ],
   "note": ""
  },
  {
   "property": "C95",
   "status": "proved",
   "theorems": [
    "C95_typed",
    "C95_kept",
    "C95_seventeen",
    "C95_one_text",
    "C95_sixteen_refuted"
   ],
   "note": ""
  },
  {
   "property": "C96",
   "status": "proved",
   "theorems": [
    "C96_named",
    "C96_all"
   ],
   "note": ""
  },
  {
   "property": "C97",
   "status": "proved",
   "theorems": [
    "C97_test",
    "C97_order",
    "C97_one_way",
    "C97_eval",
    "C97_repl",
    "C97_runs",
    "C97_shows",
    "C97_help_test",
    "C97_help",
    "C97_version",
    "C97_help_command",
    "C97_aborts",
    "C97_overflow"
   ],
   "note": ""
  },
  {
   "property": "C98",
   "status": "proved",
   "theorems": [
    "C98_unrun",
    "C98_usage",
    "C98_eval",
    "C98_eval_ends",
    "C98_typed",
    "C98_session",
    "C98_tests",
    "C98_tests_ends",
    "C98_tests_status",
    "C98_all",
    "C98_nowhere"
   ],
   "note": ""
  },
  {
   "property": "C99",
   "status": "proved",
   "theorems": [
    "C99_early",
    "C99_prompt",
    "C99_leaves"
   ],
   "note": ""
  },
  {
   "property": "C100",
   "status": "proved",
   "theorems": [
    "C100_told",
    "C100_verdict",
    "C100_forged_refuted",
    "C100_again",
    "C100_unknown"
   ],
   "note": ""
  },
  {
   "property": "C101",
   "status": "proved",
   "theorems": [
    "C101_history",
    "C101_new",
    "C101_source",
    "C101_names"
   ],
   "note": ""
  },
  {
   "property": "C102",
   "status": "proved",
   "theorems": [
    "C102_accepted",
    "C102_read",
    "C102_one_way",
    "C102_writings"
   ],
   "note": ""
  },
  {
   "property": "C103",
   "status": "proved",
   "theorems": [
    "C103_possible",
    "C103_possible_text",
    "C103_only",
    "C103_same",
    "C103_only_text",
    "C103_same_text",
    "C103_order_refuted"
   ],
   "note": ""
  },
  {
   "property": "C104",
   "status": "proved",
   "theorems": [
    "C104_verdict",
    "C104_seed",
    "C104_verdict_refuted"
   ],
   "note": ""
  },
  {
   "property": "C105",
   "status": "proved",
   "theorems": [
    "C105_same",
    "C105_bounded",
    "C105_needed",
    "C105_tokens",
    "C105_length",
    "C105_open"
   ],
   "note": ""
  },
  {
   "property": "C106",
   "status": "proved",
   "theorems": [
    "C106_same",
    "C106_bounded",
    "C106_source",
    "C106_needed",
    "C106_answer",
    "C106_read",
    "C106_sum",
    "C106_server"
   ],
   "note": ""
  },
  {
   "property": "C107",
   "status": "proved",
   "theorems": [
    "C107_body",
    "C107_chunked",
    "C107_json",
    "C107_document_refuted",
    "C107_interim",
    "C107_cut",
    "C107_cut_body",
    "C107_closed"
   ],
   "note": ""
  },
  {
   "property": "C108",
   "status": "proved",
   "theorems": [
    "C108_same",
    "C108_tokens",
    "C108_length",
    "C108_least",
    "C108_endless"
   ],
   "note": ""
  },
  {
   "property": "C109",
   "status": "proved",
   "theorems": [
    "C109_same",
    "C109_bounded",
    "C109_least",
    "C109_source",
    "C109_sizes",
    "C109_read",
    "C109_answer",
    "C109_grows"
   ],
   "note": ""
  },
  {
   "property": "C110",
   "status": "proved",
   "theorems": [
    "C110_expression",
    "C110_block",
    "C110_program",
    "C110_templates",
    "C110_clash_refuted"
   ],
   "note": ""
  },
  {
   "property": "C111",
   "status": "proved",
   "theorems": [
    "C111_swap",
    "C111_within",
    "C111_unused",
    "C111_calls_refuted",
    "C111_failing_refuted"
   ],
   "note": ""
  },
  {
   "property": "C112",
   "status": "proved",
   "theorems": [
    "C112_inline",
    "C112_placeholder_refuted"
   ],
   "note": ""
  },
  {
   "property": "C113",
   "status": "proved",
   "theorems": [
    "C113_commutes",
    "C113_associates",
    "C113_distributes",
    "C113_subtracts",
    "C113_floats",
    "C113_bits",
    "C113_shifts",
    "C113_scales",
    "C113_concat",
    "C113_checked_refuted",
    "C113_negated_refuted",
    "C113_floats_refuted",
    "C113_shifts_refuted",
    "C113_mixed_refuted"
   ],
   "note": ""
  },
  {
   "property": "C114",
   "status": "proved",
   "theorems": [
    "C114_associates",
    "C114_choices",
    "C114_negates",
    "C114_arms",
    "C114_swap_refuted",
    "C114_integer_refuted",
    "C114_arms_refuted"
   ],
   "note": ""
  },
  {
   "property": "C115",
   "status": "proved",
   "theorems": [
    "C115_block",
    "C115_closed",
    "C115_fresh",
    "C115_iterations",
    "C115_counting_refuted"
   ],
   "note": ""
  },
  {
   "property": "C116",
   "status": "proved",
   "theorems": [
    "C116_run",
    "C116_exchange",
    "C116_negative_refuted"
   ],
   "note": ""
  },
  {
   "property": "C117",
   "status": "proved",
   "theorems": [
    "C117_typed",
    "C117_upside_down_refuted"
   ],
   "note": ""
  },
  {
   "property": "C118",
   "status": "proved",
   "theorems": [
    "C118_program",
    "C118_eval",
    "C118_session",
    "C118_test",
    "C118_duration",
    "C118_run",
    "C118_run_back"
   ],
   "note": ""
  },
  {
   "property": "C119",
   "status": "proved",
   "theorems": [
    "C119_sound",
    "C119_runs",
    "C119_repeats",
    "C119_suite",
    "C119_json_refuted"
   ],
   "note": ""
  },
  {
   "property": "C120",
   "status": "proved",
   "theorems": [
    "C120_alike",
    "C120_failed_refuted"
   ],
   "note": ""
  },
  {
   "property": "C121",
   "status": "proved",
   "theorems": [
    "C121_tokens",
    "C121_parse",
    "C121_line",
    "C121_session",
    "C121_suite",
    "C121_program",
    "C121_elsewhere_refuted"
   ],
   "note": ""
  },
  {
   "property": "C122",
   "status": "proved",
   "theorems": [
    "C122_alone",
    "C122_all",
    "C122_files",
    "C122_hijacked_refuted"
   ],
   "note": ""
  },
  {
   "property": "C123",
   "status": "proved",
   "theorems": [
    "C123_parts",
    "C123_call",
    "C123_bytes",
    "C123_eval",
    "C123_run"
   ],
   "note": ""
  },
  {
   "property": "C124",
   "status": "proved",
   "theorems": [
    "C124_not",
    "C124_minus"
   ],
   "note": ""
  },
  {
   "property": "C125",
   "status": "proved",
   "theorems": [
    "C125_call",
    "C125_bytes",
    "C125_run"
   ],
   "note": ""
  },
  {
   "property": "C126",
   "status": "proved",
   "theorems": [
    "C126_run",
    "C126_bytes"
   ],
   "note": ""
  },
  {
   "property": "C127",
   "status": "proved",
   "theorems": [
    "C127_run",
    "C127_missing"
   ],
   "note": ""
  },
  {
   "property": "C128",
   "status": "proved",
   "theorems": [
    "C128_run"
   ],
   "note": ""
  },
  {
   "property": "C129",
   "status": "proved",
   "theorems": [
    "C129_named",
    "C129_all",
    "C129_ends"
   ],
   "note": ""
  },
  {
   "property": "C130",
   "status": "proved",
   "theorems": [
    "C130_named"
   ],
   "note": ""
  },
  {
   "property": "C131",
   "status": "proved",
   "theorems": [
    "C131_named",
    "C131_all"
   ],
   "note": ""
  },
  {
   "property": "C132",
   "status": "proved",
   "theorems": [
    "C132_named",
    "C132_all"
   ],
   "note": ""
  },
  {
   "property": "C133",
   "status": "proved",
   "theorems": [
    "C133_exchange",
    "C133_answered",
    "C133_named",
    "C133_all",
    "C133_ends"
   ],
   "note": ""
  },
  {
   "property": "C134",
   "status": "proved",
   "theorems": [
    "C134_source",
    "C134_tests",
    "C134_files",
    "C134_any_order",
    "C134_run",
    "C134_definitions",
    "C134_same_name_refuted"
   ],
   "note": ""
  },
  {
   "property": "C135",
   "status": "proved",
   "theorems": [
    "C135_same",
    "C135_eval",
    "C135_run",
    "C135_messages",
    "C135_setting_refuted",
    "C135_braces_refuted"
   ],
   "note": ""
  },
  {
   "property": "C136",
   "status": "proved",
   "theorems": [
    "C136_off",
    "C136_on",
    "C136_any",
    "C136_unrecorded",
    "C136_denied_refuted"
   ],
   "note": ""
  },
  {
   "property": "C137",
   "status": "proved",
   "theorems": [
    "C137_any_order",
    "C137_ordered",
    "C137_agree",
    "C137_exactly"
   ],
   "note": ""
  },
  {
   "property": "C138",
   "status": "proved",
   "theorems": [
    "C138_program",
    "C138_answered",
    "C138_run",
    "C138_run_answered"
   ],
   "note": ""
  },
  {
   "property": "C139",
   "status": "proved",
   "theorems": [
    "C139_continues",
    "C139_determined",
    "C139_named_ends",
    "C139_all_ends",
    "C139_order_matters"
   ],
   "note": ""
  },
  {
   "property": "C140",
   "status": "proved",
   "theorems": [
    "C140_named",
    "C140_all",
    "C140_stopped"
   ],
   "note": ""
  },
  {
   "property": "C141",
   "status": "proved",
   "theorems": [
    "C141_agree",
    "C141_more",
    "C141_single",
    "C141_recorded"
   ],
   "note": ""
  },
  {
   "property": "C142",
   "status": "proved",
   "theorems": [
    "C142_run"
   ],
   "note": ""
  },
  {
   "property": "C143",
   "status": "proved",
   "theorems": [
    "C143_run",
    "C143_back",
    "C143_sets_refuted"
   ],
   "note": ""
  },
  {
   "property": "C144",
   "status": "proved",
   "theorems": [
    "C144_run",
    "C144_back"
   ],
   "note": ""
  },
  {
   "property": "C145",
   "status": "proved",
   "theorems": [
    "C145_run",
    "C145_end",
    "C145_failing"
   ],
   "note": ""
  },
  {
   "property": "C146",
   "status": "proved",
   "theorems": [
    "C146_run",
    "C146_back",
    "C146_itself",
    "C146_unchanged",
    "C146_unread",
    "C146_unused",
    "C146_steps",
    "C146_parts",
    "C146_swap"
   ],
   "note": ""
  },
  {
   "property": "C147",
   "status": "proved",
   "theorems": [
    "C147_release",
    "C147_until",
    "C147_debug",
    "C147_riskless"
   ],
   "note": ""
  }
 ]
}