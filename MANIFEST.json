{
 "claims": [
  {
   "property": "C01",
   "status": "proved",
   "theorems": [
    "C01_and_then_assoc",
    "C01_and_then_unit",
    "C01_chain",
    "C01_combine",
    "C01_merge",
    "C01_result_round_trip",
    "C01_methods"
   ],
   "note": ""
  },
  {
   "property": "C02",
   "status": "proved",
   "theorems": [
    "C02_any",
    "C02_satisfy",
    "C02_satisfy_map",
    "C02_token",
    "C02_one_of",
    "C02_none_of",
    "C02_eof",
    "C02_value_produce_position"
   ],
   "note": ""
  },
  {
   "property": "C03",
   "status": "proved",
   "theorems": [
    "C03_tokens",
    "C03_tokens_cmp",
    "C03_cases_cover"
   ],
   "note": ""
  },
  {
   "property": "C04",
   "status": "proved",
   "theorems": [
    "C04_tuple_succeeds",
    "C04_tuple_fails",
    "C04_tuple_error"
   ],
   "note": ""
  },
  {
   "property": "C05",
   "status": "proved",
   "theorems": [
    "C05_pair",
    "C05_with",
    "C05_skip",
    "C05_between",
    "C05_then",
    "C05_map",
    "C05_map_input",
    "C05_ignore",
    "C05_flat_map",
    "C05_and_then"
   ],
   "note": ""
  },
  {
   "property": "C06",
   "status": "proved",
   "theorems": [
    "C06_choice",
    "C06_or",
    "C06_choice_any_state",
    "C06_none_input"
   ],
   "note": ""
  },
  {
   "property": "C07",
   "status": "proved",
   "theorems": [
    "C07_slice",
    "C07_slice_empty",
    "C07_slice_stateless",
    "C07_slice_sharing_refuted",
    "C07_slice_calls",
    "C07_slice_next"
   ],
   "note": ""
  },
  {
   "property": "C08",
   "status": "proved",
   "theorems": [
    "C08_optional"
   ],
   "note": ""
  },
  {
   "property": "C09",
   "status": "proved",
   "theorems": [
    "C09_attempt_success",
    "C09_attempt_failure_complete",
    "C09_attempt_failure",
    "C09_attempt_or"
   ],
   "note": "Failure half and attempt-or for all parsers of the modelled library (inductive class lib)."
  },
  {
   "property": "C10",
   "status": "proved",
   "theorems": [
    "C10_look_ahead",
    "C10_not_followed_by"
   ],
   "note": ""
  },
  {
   "property": "C11",
   "status": "proved",
   "theorems": [
    "C11_many_succeeds",
    "C11_many_fails",
    "C11_many1_succeeds",
    "C11_many1_fails",
    "C11_skip_many_succeeds",
    "C11_skip_many_fails",
    "C11_skip_many1_succeeds",
    "C11_skip_many1_fails"
   ],
   "note": ""
  },
  {
   "property": "C12",
   "status": "proved",
   "theorems": [
    "C12_many_terminates",
    "C12_many1_terminates",
    "C12_sep_by1_terminates",
    "C12_sep_end_by1_terminates",
    "C12_chainl1_terminates",
    "C12_chainr1_terminates",
    "C12_repeat_until_terminates",
    "C12_take_until_terminates",
    "C12_escaped_terminates",
    "C12_many_diverges",
    "C12_satisfy_progress"
   ],
   "note": ""
  },
  {
   "property": "C13",
   "status": "proved",
   "theorems": [
    "C13_count_min_max_succeeds",
    "C13_count_min_max_fails",
    "C13_count_min_max_panics",
    "C13_count",
    "C13_skip_count_min_max_succeeds",
    "C13_skip_count_min_max_fails",
    "C13_skip_count_succeeds"
   ],
   "note": ""
  },
  {
   "property": "C14",
   "status": "proved",
   "theorems": [
    "C14_sep_by1_succeeds",
    "C14_sep_by1_fails",
    "C14_sep_by_succeeds",
    "C14_sep_by_fails"
   ],
   "note": ""
  },
  {
   "property": "C15",
   "status": "proved",
   "theorems": [
    "C15_sep_end_by1_succeeds",
    "C15_sep_end_by1_fails",
    "C15_sep_end_by_succeeds",
    "C15_sep_end_by_fails"
   ],
   "note": ""
  },
  {
   "property": "C16",
   "status": "proved",
   "theorems": [
    "C16_chainl1_succeeds",
    "C16_chainl1_fails"
   ],
   "note": ""
  },
  {
   "property": "C17",
   "status": "proved",
   "theorems": [
    "C17_chainr1_succeeds",
    "C17_chainr1_fails_first",
    "C17_right_fold",
    "C17_dangling_operator_dropped"
   ],
   "note": ""
  },
  {
   "property": "C18",
   "status": "proved",
   "theorems": [
    "C18_take_until_succeeds",
    "C18_take_until_fails",
    "C18_passed",
    "C18_skip_until_succeeds",
    "C18_skip_until_fails",
    "C18_repeat_until_succeeds",
    "C18_repeat_until_fails"
   ],
   "note": ""
  },
  {
   "property": "C19",
   "status": "proved",
   "theorems": [
    "C19_iterate_succeeds",
    "C19_iterate_fails",
    "C19_iterate_stateless"
   ],
   "note": ""
  },
  {
   "property": "C20",
   "status": "proved",
   "theorems": [
    "C20_recognize",
    "C20_recognize_range",
    "C20_recognize_with_value",
    "C20_positions"
   ],
   "note": ""
  },
  {
   "property": "C21",
   "status": "proved",
   "theorems": [
    "C21_take",
    "C21_take_slice",
    "C21_range",
    "C21_take_while",
    "C21_take_while1"
   ],
   "note": ""
  },
  {
   "property": "C22",
   "status": "proved",
   "theorems": [
    "C22_take_until_range",
    "C22_take_until_byte",
    "C22_take_until_bytes"
   ],
   "note": ""
  },
  {
   "property": "C23",
   "status": "proved",
   "theorems": [
    "C23_numbers",
    "C23_unsigned",
    "C23_signed"
   ],
   "note": ""
  },
  {
   "property": "C24",
   "status": "proved",
   "theorems": [
    "C24_classes",
    "C24_char_classes",
    "C24_crlf",
    "C24_inclusions"
   ],
   "note": ""
  },
  {
   "property": "C25",
   "status": "proved",
   "theorems": [
    "C25_forward",
    "C25_parse",
    "C25_parse_with_state"
   ],
   "note": ""
  },
  {
   "property": "C26",
   "status": "proved",
   "theorems": [
    "C26_parse_ok",
    "C26_parse_committed",
    "C26_parse_backtracks",
    "C26_parse_stream_partial",
    "C26_attempt_refuted"
   ],
   "note": "The report and the restored input are proved for every library parser except an outermost attempt; for that one C26_attempt_refuted gives the counterexample (attempt overrides parse_stream)."
  },
  {
   "property": "C27",
   "status": "proved",
   "theorems": [
    "C27_still",
    "C27_lazy",
    "C27_escaped_refuted",
    "C27_escaped_loses_refuted",
    "C27_converse_take_until_refuted",
    "C27_converse_repeat_until_refuted",
    "C27_converse_range_refuted"
   ],
   "note": ""
  },
  {
   "property": "C28",
   "status": "proved",
   "theorems": [
    "C28_tidy_history_free",
    "C28_attempt_count_refuted",
    "C28_attempt_many_refuted",
    "C28_attempt_many1_refuted",
    "C28_take_until_refuted",
    "C28_repeat_until_refuted",
    "C28_recognize"
   ],
   "note": ""
  },
  {
   "property": "C29",
   "status": "proved",
   "theorems": [
    "C29_chunks",
    "C29_cuts",
    "C29_decode",
    "C29_laws"
   ],
   "note": ""
  },
  {
   "property": "C30",
   "status": "proved",
   "theorems": [
    "C30_chainl1_refuted",
    "C30_sep_by_refuted",
    "C30_sep_by1_refuted",
    "C30_attempt_refuted",
    "C30_many_refuted",
    "C30_optional_refuted",
    "C30_tokens_refuted",
    "C30_eof_refuted",
    "C30_not_followed_by_refuted",
    "C30_parser_fn_refuted",
    "C30_take_until_refuted",
    "C30_repeat_until_refuted",
    "C30_chainr1_refuted",
    "C30_choice_slice_refuted",
    "C30_stale_refuted",
    "C30_length_prefix_refuted",
    "C30_count_refuted",
    "C30_take_until_byte_refuted",
    "C30_range_str_refuted",
    "C30_take_until_range_str_refuted",
    "C30_take_until_byte_str_refuted"
   ],
   "note": ""
  },
  {
   "property": "C31",
   "status": "proved",
   "theorems": [
    "C31_decode",
    "C31_decode_done",
    "C31_count_slice",
    "C31_count_str",
    "C31_decode_tokio",
    "C31_tokio_count_slice",
    "C31_tokio_count_str"
   ],
   "note": ""
  },
  {
   "property": "C32",
   "status": "proved",
   "theorems": [
    "C32_session",
    "C32_conserves",
    "C32_end",
    "C32_no_panic",
    "C32_terminates",
    "C32_error_state_refuted"
   ],
   "note": ""
  },
  {
   "property": "C33",
   "status": "proved",
   "theorems": [
    "C33_any_partial_state",
    "C33_any_partial_state_calls"
   ],
   "note": ""
  },
  {
   "property": "C34",
   "status": "proved",
   "theorems": [
    "C34_client",
    "C34_client_index",
    "C34_line_column",
    "C34_determined",
    "C34_index",
    "C34_bytes"
   ],
   "note": ""
  },
  {
   "property": "C35",
   "status": "proved",
   "theorems": [
    "C35_str",
    "C35_slice",
    "C35_index_str_refuted"
   ],
   "note": ""
  },
  {
   "property": "C36",
   "status": "proved",
   "theorems": [
    "C36_history",
    "C36_replay"
   ],
   "note": ""
  },
  {
   "property": "C37",
   "status": "proved",
   "theorems": [
    "C37_uncons",
    "C37_range",
    "C37_while",
    "C37_while1",
    "C37_refines",
    "C37_scan_total"
   ],
   "note": ""
  },
  {
   "property": "C38",
   "status": "proved",
   "theorems": [
    "C38_unrolled",
    "C38_longest",
    "C38_refines"
   ],
   "note": ""
  },
  {
   "property": "C39",
   "status": "proved",
   "theorems": [
    "C39_merge_furthest",
    "C39_merge_assoc",
    "C39_merge_idem",
    "C39_no_repeats",
    "C39_add",
    "C39_other_refuted"
   ],
   "note": "Idempotence excludes opaque Other entries, for which C39_other_refuted is the counterexample."
  },
  {
   "property": "C40",
   "status": "proved",
   "theorems": [
    "C40_expected_same",
    "C40_expected_add_error",
    "C40_expected_report",
    "C40_message_same",
    "C40_message_report",
    "C40_silent",
    "C40_silent_report",
    "C40_unexpected"
   ],
   "note": ""
  },
  {
   "property": "C41",
   "status": "proved",
   "theorems": [
    "C41_choice_of_tokens",
    "C41_slice_of_tokens",
    "C41_choice",
    "C41_all_alternatives_refuted"
   ],
   "note": ""
  },
  {
   "property": "C42",
   "status": "proved",
   "theorems": [
    "C42_sequence_of_tokens",
    "C42_sequence",
    "C42_nested",
    "C42_inner",
    "C42_nesting_refuted"
   ],
   "note": ""
  },
  {
   "property": "C43",
   "status": "proved",
   "theorems": [
    "C43_minimal_into",
    "C43_minimal_into_err",
    "C43_easy_into_easy",
    "C43_position",
    "C43_easy_into_all",
    "C43_message_refuted",
    "C43_last_only_refuted",
    "C43_easy_eoi_refuted",
    "C43_boundary_refuted"
   ],
   "note": "True parts proved; the false parts (message entries, only the last entry kept, easy end of input into the minimal types, character boundary) are refuted by the _refuted theorems."
  },
  {
   "property": "C44",
   "status": "proved",
   "theorems": [
    "C44_read_error",
    "C44_read_error_last",
    "C44_unexpected_parse",
    "C44_string_stream_error",
    "C44_string_stream_error_last",
    "C44_set_expected",
    "C44_set_expected_string"
   ],
   "note": ""
  },
  {
   "property": "C45",
   "status": "proved",
   "theorems": [
    "C45_escaped_succeeds",
    "C45_escaped_fails",
    "C45_take_while1_restores",
    "C45_satisfy_refuted"
   ],
   "note": ""
  },
  {
   "property": "C46",
   "status": "proved",
   "theorems": [
    "C46_many_refuted",
    "C46_eof",
    "C46_decoder"
   ],
   "note": ""
  },
  {
   "property": "C47",
   "status": "proved",
   "theorems": [
    "C47_length_prefix"
   ],
   "note": ""
  },
  {
   "property": "C48",
   "status": "proved",
   "theorems": [
    "C48_spanned"
   ],
   "note": ""
  },
  {
   "property": "C49",
   "status": "proved",
   "theorems": [
    "C49_tuple_no_missing_value"
   ],
   "note": ""
  },
  {
   "property": "C50",
   "status": "proved",
   "theorems": [
    "C50_slice",
    "C50_str",
    "C50_index_str",
    "C50_buffered"
   ],
   "note": ""
  },
  {
   "property": "C51",
   "status": "proved",
   "theorems": [
    "C51_history",
    "C51_read_end"
   ],
   "note": ""
  },
  {
   "property": "C52",
   "status": "proved",
   "theorems": [
    "C52_run",
    "C52_parse",
    "C52_lazy",
    "C52_consumes",
    "C52_unproductive_refuted",
    "C52_many1_refuted",
    "C52_then_refuted"
   ],
   "note": ""
  },
  {
   "property": "C53",
   "status": "proved",
   "theorems": [
    "C53_rec_fn",
    "C53_rec_macro",
    "C53_grammar",
    "C53_left_recursion_refuted"
   ],
   "note": ""
  },
  {
   "property": "C54",
   "status": "proved",
   "theorems": [
    "C54_easy",
    "C54_span",
    "C54_partial_stream",
    "C54_maybe",
    "C54_state",
    "C54_position",
    "C54_order"
   ],
   "note": ""
  },
  {
   "property": "C55",
   "status": "proved",
   "theorems": [
    "C55_slice",
    "C55_str",
    "C55_reads_slice",
    "C55_reads_str",
    "C55_distance_slice",
    "C55_distance_str",
    "C55_index_refuted",
    "C55_zero_sized"
   ],
   "note": ""
  },
  {
   "property": "C56",
   "status": "proved",
   "theorems": [
    "C56_report",
    "C56_complete",
    "C56_map_laws",
    "C56_map_compose",
    "C56_map_shown",
    "C56_choice"
   ],
   "note": ""
  },
  {
   "property": "C57",
   "status": "proved",
   "theorems": [
    "C57_find",
    "C57_find_many",
    "C57_captures",
    "C57_captures_many",
    "C57_match",
    "C57_forward",
    "C57_error",
    "C57_chunks_refuted"
   ],
   "note": ""
  },
  {
   "property": "C58",
   "status": "proved",
   "theorems": [
    "C58_sound",
    "C58_complete",
    "C58_deterministic",
    "C58_parse"
   ],
   "note": ""
  },
  {
   "property": "C59",
   "status": "proved",
   "theorems": [
    "C59_peg_sound",
    "C59_peg_complete",
    "C59_no_attempt_refuted"
   ],
   "note": ""
  },
  {
   "property": "C60",
   "status": "proved",
   "theorems": [
    "C60_sound",
    "C60_ll1",
    "C60_prefix",
    "C60_unambiguous",
    "C60_not_ll1_refuted"
   ],
   "note": ""
  },
  {
   "property": "C61",
   "status": "proved",
   "theorems": [
    "C61_total",
    "C61_peg",
    "C61_left_recursion_refuted"
   ],
   "note": ""
  },
  {
   "property": "C62",
   "status": "proved",
   "theorems": [
    "C62_messages",
    "C62_prompt",
    "C62_bad_bytes_panic_refuted"
   ],
   "note": ""
  },
  {
   "property": "C63",
   "status": "proved",
   "theorems": [
    "C63_exact",
    "C63_rfc",
    "C63_total",
    "C63_decimal",
    "C63_sign_refuted",
    "C63_rfc_only_refuted"
   ],
   "note": ""
  },
  {
   "property": "C64",
   "status": "proved",
   "theorems": [
    "C64_exact",
    "C64_panic",
    "C64_unwrap_refuted"
   ],
   "note": ""
  },
  {
   "property": "C65",
   "status": "proved",
   "theorems": [
    "C65_exact",
    "C65_written",
    "C65_left",
    "C65_total",
    "C65_eof_refuted"
   ],
   "note": ""
  },
  {
   "property": "C66",
   "status": "proved",
   "theorems": [
    "C66_exact",
    "C66_total",
    "C66_series",
    "C66_unambiguous",
    "C66_rfc",
    "C66_all_rfc_refuted",
    "C66_pieces_refuted"
   ],
   "note": ""
  },
  {
   "property": "C67",
   "status": "proved",
   "theorems": [
    "C67_exact",
    "C67_error",
    "C67_error_kept",
    "C67_panic",
    "C67_unambiguous",
    "C67_no_panic_refuted",
    "C67_complete_refuted"
   ],
   "note": ""
  },
  {
   "property": "C68",
   "status": "proved",
   "theorems": [
    "C68_steady",
    "C68_session",
    "C68_retry",
    "C68_conserves",
    "C68_whole",
    "C68_cancel_safe",
    "C68_retry_safe",
    "C68_no_panic",
    "C68_terminates",
    "C68_history",
    "C68_read_end"
   ],
   "note": ""
  },
  {
   "property": "C69",
   "status": "proved",
   "theorems": [
    "C69_selected",
    "C69_fresh",
    "C69_resume",
    "C69_classes",
    "C69_then",
    "C69_expected_refuted"
   ],
   "note": ""
  },
  {
   "property": "C70",
   "status": "proved",
   "theorems": [
    "C70_succeeds",
    "C70_fails",
    "C70_unmoved",
    "C70_history_free",
    "C70_many_diverges",
    "C70_pieces_refuted",
    "C70_expected_refuted"
   ],
   "note": ""
  },
  {
   "property": "C71",
   "status": "proved",
   "theorems": [
    "C71_add_error",
    "C71_parse",
    "C71_attempt",
    "C71_attempt_lazy_refuted",
    "C71_sequence",
    "C71_unread",
    "C71_choice",
    "C71_repetitions",
    "C71_sequences",
    "C71_thens",
    "C71_literals",
    "C71_classes",
    "C71_unnamed"
   ],
   "note": ""
  },
  {
   "property": "C72",
   "status": "proved",
   "theorems": [
    "C72_many",
    "C72_elements",
    "C72_end",
    "C72_again_refuted",
    "C72_chunks",
    "C72_number"
   ],
   "note": ""
  },
  {
   "property": "C73",
   "status": "proved",
   "theorems": [
    "C73_parse",
    "C73_same",
    "C73_many",
    "C73_resume",
    "C73_next_message_refuted",
    "C73_rebuilt_refuted"
   ],
   "note": ""
  },
  {
   "property": "C74",
   "status": "proved",
   "theorems": [
    "C74_class",
    "C74_parse",
    "C74_session",
    "C74_answer",
    "C74_decode",
    "C74_polls",
    "C74_driven"
   ],
   "note": ""
  },
  {
   "property": "C75",
   "status": "proved",
   "theorems": [
    "C75_parse",
    "C75_calls",
    "C75_sessions",
    "C75_library",
    "C75_attempt_refuted"
   ],
   "note": ""
  },
  {
   "property": "C76",
   "status": "proved",
   "theorems": [
    "C76_byte",
    "C76_bytes",
    "C76_bench",
    "C76_bench_again",
    "C76_half_again",
    "C76_str_byte_refuted",
    "C76_str_bytes_refuted"
   ],
   "note": ""
  },
  {
   "property": "C77",
   "status": "proved",
   "theorems": [
    "C77_number",
    "C77_number_fails",
    "C77_number_safe",
    "C77_number_pieces",
    "C77_readme",
    "C77_readme_fails"
   ],
   "note": ""
  },
  {
   "property": "C78",
   "status": "proved",
   "theorems": [
    "C78_sep_end_by1",
    "C78_chainl1",
    "C78_stays_committed"
   ],
   "note": ""
  },
  {
   "property": "C79",
   "status": "proved",
   "theorems": [
    "C79_equal",
    "C79_parse",
    "C79_factor",
    "C79_unfold",
    "C79_or_comm_refuted",
    "C79_factor_no_attempt_refuted",
    "C79_factor_right_refuted",
    "C79_attempt_or_refuted"
   ],
   "note": ""
  },
  {
   "property": "C80",
   "status": "proved",
   "theorems": [
    "C80_streams",
    "C80_decoder",
    "C80_end_kept",
    "C80_basic",
    "C80_choice",
    "C80_recognize",
    "C80_recognize_range",
    "C80_take_while",
    "C80_take_while1",
    "C80_until_colons",
    "C80_take_fn",
    "C80_underscore",
    "C80_end_refuted",
    "C80_prefix_many_then",
    "C80_content_length",
    "C80_take_until_bytes",
    "C80_take_until",
    "C80_take_until_committed"
   ],
   "note": ""
  },
  {
   "property": "C81",
   "status": "proved",
   "theorems": [
    "C81_reads",
    "C81_cuts",
    "C81_whole",
    "C81_ends",
    "C81_silent_refuted",
    "C81_take_until",
    "C81_take_until_refuted",
    "C81_sep_end_by_refuted"
   ],
   "note": ""
  },
  {
   "property": "C82",
   "status": "proved",
   "theorems": [
    "C82_begins",
    "C82_whole",
    "C82_fewer",
    "C82_ends",
    "C82_num",
    "C82_fixed",
    "C82_cuts",
    "C82_lost_refuted"
   ],
   "note": ""
  },
  {
   "property": "C83",
   "status": "partial",
   "theorems": [
    "C83_text_partial",
    "C83_lists_partial"
   ],
   "note": ""
  }
 ]
}