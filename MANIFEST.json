{
 "claims": [
  {
   "property": "C01",
   "status": "proved",
   "theorems": [
    "C01_len_valid",
    "C01_len_step",
    "C01_len_bounds",
    "C01_len_app"
   ],
   "note": ""
  },
  {
   "property": "C02",
   "status": "proved",
   "theorems": [
    "C02_pad_left",
    "C02_pad_right",
    "C02_pad_space",
    "C02_invalid_rune"
   ],
   "note": ""
  },
  {
   "property": "C03",
   "status": "proved",
   "theorems": [
    "C03_pad_center",
    "C03_pad_center_space"
   ],
   "note": ""
  },
  {
   "property": "C04",
   "status": "proved",
   "theorems": [
    "C04_repeat",
    "C04_remove_char"
   ],
   "note": ""
  },
  {
   "property": "C05",
   "status": "proved",
   "theorems": [
    "C05_sub",
    "C05_sub_empty",
    "C05_left_right",
    "C05_split"
   ],
   "note": ""
  },
  {
   "property": "C06",
   "status": "proved",
   "theorems": [
    "C06_rotate_single_byte",
    "C06_rotate_ascii",
    "C06_rotate_general",
    "C06_rotate_refuted"
   ],
   "note": ""
  },
  {
   "property": "C07",
   "status": "proved",
   "theorems": [
    "C07_reverse",
    "C07_must_reverse",
    "C07_replacement_char_refuted"
   ],
   "note": ""
  },
  {
   "property": "C08",
   "status": "proved",
   "theorems": [
    "C08_permutation",
    "C08_each_permutation_once",
    "C08_each_result_once",
    "C08_empty"
   ],
   "note": ""
  },
  {
   "property": "C09",
   "status": "proved",
   "theorems": [
    "C09_remove_string",
    "C09_removed_unique",
    "C09_unchanged",
    "C09_idempotent_refuted"
   ],
   "note": ""
  },
  {
   "property": "C10",
   "status": "proved",
   "theorems": [
    "C10_classes",
    "C10_white_space",
    "C10_implications",
    "C10_any_none",
    "C10_no_arguments"
   ],
   "note": ""
  },
  {
   "property": "C11",
   "status": "proved",
   "theorems": [
    "C11_is_numerical",
    "C11_accepts_numbers",
    "C11_rejects_non_digit_start",
    "C11_only_numbers_refuted"
   ],
   "note": ""
  },
  {
   "property": "C12",
   "status": "proved",
   "theorems": [
    "C12_few",
    "C12_index_of_difference",
    "C12_two",
    "C12_huge_refuted"
   ],
   "note": ""
  },
  {
   "property": "C13",
   "status": "proved",
   "theorems": [
    "C13_common_prefix",
    "C13_common_prefix_none",
    "C13_difference",
    "C13_difference_prefix",
    "C13_ill_formed_refuted"
   ],
   "note": ""
  },
  {
   "property": "C14",
   "status": "proved",
   "theorems": [
    "C14_region_matches",
    "C14_contains_ignore_case"
   ],
   "note": ""
  },
  {
   "property": "C15",
   "status": "proved",
   "theorems": [
    "C15_equals_ignore_case",
    "C15_lower_case_equal",
    "C15_empty_equals_all",
    "C15_symmetric_refuted"
   ],
   "note": ""
  },
  {
   "property": "C16",
   "status": "proved",
   "theorems": [
    "C16_ends_with",
    "C16_ends_with_case",
    "C16_ends_with_ignore_case",
    "C16_ends_with_any"
   ],
   "note": ""
  },
  {
   "property": "C17",
   "status": "proved",
   "theorems": [
    "C17_delete_whitespace",
    "C17_delete_whitespace_text",
    "C17_ascii",
    "C17_multibyte_refuted"
   ],
   "note": ""
  },
  {
   "property": "C18",
   "status": "proved",
   "theorems": [
    "C18_no_marker",
    "C18_abbreviate",
    "C18_small_offset",
    "C18_width",
    "C18_width_refuted",
    "C18_negative_offset_refuted"
   ],
   "note": ""
  },
  {
   "property": "C19",
   "status": "proved",
   "theorems": [
    "C19_defaults",
    "C19_equals_any",
    "C19_contains",
    "C19_contains_any",
    "C19_index",
    "C19_index_any_none",
    "C19_index_any_first",
    "C19_contains_empty_refuted"
   ],
   "note": ""
  },
  {
   "property": "C20",
   "status": "proved",
   "theorems": [
    "C20_options",
    "C20_join",
    "C20_general",
    "C20_leading_step_refuted"
   ],
   "note": ""
  },
  {
   "property": "C21",
   "status": "proved",
   "theorems": [
    "C21_len",
    "C21_cap",
    "C21_counts",
    "C21_grow_panics"
   ],
   "note": ""
  },
  {
   "property": "C22",
   "status": "proved",
   "theorems": [
    "C22_err"
   ],
   "note": ""
  },
  {
   "property": "C23",
   "status": "proved",
   "theorems": [
    "C23_int_max_min_exact"
   ],
   "note": ""
  },
  {
   "property": "C24",
   "status": "proved",
   "theorems": [
    "C24_int_max_min_rounds",
    "C24_overflow",
    "C24_exact_refuted"
   ],
   "note": ""
  },
  {
   "property": "C25",
   "status": "proved",
   "theorems": [
    "C25_float64_finite",
    "C25_float64_special",
    "C25_float64_commutes",
    "C25_float32"
   ],
   "note": ""
  },
  {
   "property": "C26",
   "status": "proved",
   "theorems": [
    "C26_writes",
    "C26_round_trip"
   ],
   "note": ""
  },
  {
   "property": "C27",
   "status": "proved",
   "theorems": [
    "C27_prefix",
    "C27_long_refuted"
   ],
   "note": ""
  },
  {
   "property": "C28",
   "status": "proved",
   "theorems": [
    "C28_uint16",
    "C28_uint32",
    "C28_bool",
    "C28_bytes_safe",
    "C28_bytes_exact",
    "C28_bytes_returns",
    "C28_bytes_chunked",
    "C28_bytes_truncated",
    "C28_chunked_header_refuted",
    "C28_stale_bool_refuted"
   ],
   "note": ""
  },
  {
   "property": "C29",
   "status": "proved",
   "theorems": [
    "C29_malloc",
    "C29_returns",
    "C29_mallocsize"
   ],
   "note": ""
  },
  {
   "property": "C30",
   "status": "proved",
   "theorems": [
    "C30_disjoint",
    "C30_contents_stable",
    "C30_double_free_refuted",
    "C30_stale_refuted"
   ],
   "note": ""
  },
  {
   "property": "C31",
   "status": "proved",
   "theorems": [
    "C31_isolated",
    "C31_size_new",
    "C31_size_refuted",
    "C31_alias_refuted",
    "C31_can_read",
    "C31_same"
   ],
   "note": ""
  },
  {
   "property": "C32",
   "status": "proved",
   "theorems": [
    "C32_isolated",
    "C32_flush",
    "C32_dropped",
    "C32_size_new",
    "C32_size_refuted",
    "C32_can_flush",
    "C32_same",
    "C32_alias_refuted"
   ],
   "note": ""
  },
  {
   "property": "C33",
   "status": "proved",
   "theorems": [
    "C33_new",
    "C33_take",
    "C33_stream_ring",
    "C33_overflow_refuted"
   ],
   "note": ""
  },
  {
   "property": "C34",
   "status": "proved",
   "theorems": [
    "C34_any_call",
    "C34_take",
    "C34_no_panic",
    "C34_exclusive"
   ],
   "note": ""
  },
  {
   "property": "C35",
   "status": "proved",
   "theorems": [
    "C35_deterministic",
    "C35_success",
    "C35_failure",
    "C35_negative_refuted",
    "C35_maxint_diverges",
    "C35_options"
   ],
   "note": ""
  },
  {
   "property": "C36",
   "status": "proved",
   "theorems": [
    "C36_outcome",
    "C36_start_once",
    "C36_predone",
    "C36_each_outcome",
    "C36_any_do"
   ],
   "note": ""
  },
  {
   "property": "C37",
   "status": "proved",
   "theorems": [
    "C37_once",
    "C37_after_outcome"
   ],
   "note": ""
  },
  {
   "property": "C38",
   "status": "proved",
   "theorems": [
    "C38_no_leak",
    "C38_ended"
   ],
   "note": ""
  },
  {
   "property": "C39",
   "status": "proved",
   "theorems": [
    "C39_progress",
    "C39_bounded",
    "C39_goexit_refuted"
   ],
   "note": ""
  },
  {
   "property": "C40",
   "status": "proved",
   "theorems": [
    "C40_any_call",
    "C40_bound",
    "C40_two_contexts_refuted"
   ],
   "note": ""
  },
  {
   "property": "C41",
   "status": "proved",
   "theorems": [
    "C41_slots",
    "C41_all_free",
    "C41_blocks_only_when_full",
    "C41_release_enabled",
    "C41_once",
    "C41_size0",
    "C41_new"
   ],
   "note": ""
  },
  {
   "property": "C42",
   "status": "proved",
   "theorems": [
    "C42_any_call",
    "C42_one",
    "C42_first",
    "C42_exactly_one",
    "C42_no_panic",
    "C42_no_block",
    "C42_received",
    "C42_available"
   ],
   "note": ""
  },
  {
   "property": "C43",
   "status": "proved",
   "theorems": [
    "C43_any_call",
    "C43_one",
    "C43_value",
    "C43_no_panic",
    "C43_exactly_one",
    "C43_panics_refuted"
   ],
   "note": ""
  },
  {
   "property": "C44",
   "status": "proved",
   "theorems": [
    "C44_cancelled",
    "C44_not_cancelled",
    "C44_result",
    "C44_fifo",
    "C44_not_cancellable",
    "C44_others",
    "C44_progress",
    "C44_closed_true"
   ],
   "note": ""
  },
  {
   "property": "C45",
   "status": "proved",
   "theorems": [
    "C45_cancelled",
    "C45_result",
    "C45_fifo",
    "C45_not_cancellable",
    "C45_close_panics",
    "C45_bounded",
    "C45_others",
    "C45_progress"
   ],
   "note": ""
  },
  {
   "property": "C46",
   "status": "proved",
   "theorems": [
    "C46_exclusion",
    "C46_owned",
    "C46_attempt",
    "C46_trylock",
    "C46_failure",
    "C46_lock",
    "C46_any_call",
    "C46_undisciplined_refuted"
   ],
   "note": ""
  },
  {
   "property": "C47",
   "status": "proved",
   "theorems": [
    "C47_backoff",
    "C47_backoff_prefix",
    "C47_pauses",
    "C47_progress",
    "C47_never_blocks",
    "C47_only_others",
    "C47_starvation"
   ],
   "note": ""
  },
  {
   "property": "C48",
   "status": "proved",
   "theorems": [
    "C48_refines"
   ],
   "note": ""
  },
  {
   "property": "C49",
   "status": "proved",
   "theorems": [
    "C49_range",
    "C49_unchanged",
    "C49_clear"
   ],
   "note": ""
  },
  {
   "property": "C50",
   "status": "proved",
   "theorems": [
    "C50_any_call",
    "C50_any_outcome",
    "C50_linearizable",
    "C50_one_instant",
    "C50_no_crash",
    "C50_progress"
   ],
   "note": ""
  },
  {
   "property": "C51",
   "status": "proved",
   "theorems": [
    "C51_no_key_twice",
    "C51_values_current",
    "C51_complete",
    "C51_present_is_visited",
    "C51_stop_stops"
   ],
   "note": ""
  },
  {
   "property": "C52",
   "status": "proved",
   "theorems": [
    "C52_present",
    "C52_lost_update_witness"
   ],
   "note": ""
  },
  {
   "property": "C53",
   "status": "proved",
   "theorems": [
    "C53_at_most_twice",
    "C53_returns_last_answer",
    "C53_absent",
    "C53_when_called",
    "C53_not_called_when_present",
    "C53_two_calls_witness"
   ],
   "note": ""
  },
  {
   "property": "C54",
   "status": "proved",
   "theorems": [
    "C54_computing_shuts",
    "C54_panic_shuts",
    "C54_panic_without_lock",
    "C54_range_holds_no_lock",
    "C54_panic_witness"
   ],
   "note": ""
  },
  {
   "property": "C55",
   "status": "proved",
   "theorems": [
    "C55_torn_read_witness",
    "C55_inversion_witness",
    "C55_load_without_clear",
    "C55_contents_change",
    "C55_store_value",
    "C55_atomic_clear_linearizable",
    "C55_atomic_clear_no_crash",
    "C55_callback_after_clear_witness",
    "C55_callback_order_witness"
   ],
   "note": ""
  },
  {
   "property": "C56",
   "status": "proved",
   "theorems": [
    "C56_count",
    "C56_wrap",
    "C56_zero",
    "C56_none",
    "C56_none_ex",
    "C56_hash"
   ],
   "note": ""
  },
  {
   "property": "C57",
   "status": "proved",
   "theorems": [
    "C57_any_call",
    "C57_refines",
    "C57_range"
   ],
   "note": ""
  },
  {
   "property": "C58",
   "status": "proved",
   "theorems": [
    "C58_any_call",
    "C58_any_outcome",
    "C58_one_create",
    "C58_same",
    "C58_flight",
    "C58_join",
    "C58_failed",
    "C58_stored"
   ],
   "note": ""
  },
  {
   "property": "C59",
   "status": "proved",
   "theorems": [
    "C59_close",
    "C59_once",
    "C59_present",
    "C59_remove",
    "C59_remove_ret",
    "C59_lookup",
    "C59_removed_witness"
   ],
   "note": ""
  },
  {
   "property": "C60",
   "status": "proved",
   "theorems": [
    "C60_after_close",
    "C60_get_panics",
    "C60_locked",
    "C60_nil_create",
    "C60_create_panics",
    "C60_create_exits",
    "C60_closed_witness"
   ],
   "note": ""
  },
  {
   "property": "C61",
   "status": "proved",
   "theorems": [
    "C61_of",
    "C61_of_unread",
    "C61_from",
    "C61_buffer",
    "C61_empty"
   ],
   "note": ""
  },
  {
   "property": "C62",
   "status": "proved",
   "theorems": [
    "C62_distinct",
    "C62_firsts"
   ],
   "note": ""
  },
  {
   "property": "C63",
   "status": "proved",
   "theorems": [
    "C63_skip",
    "C63_limit",
    "C63_limit_closes",
    "C63_negative"
   ],
   "note": ""
  },
  {
   "property": "C64",
   "status": "proved",
   "theorems": [
    "C64_tail",
    "C64_negative"
   ],
   "note": ""
  },
  {
   "property": "C65",
   "status": "proved",
   "theorems": [
    "C65_split",
    "C65_splitsteam",
    "C65_panics"
   ],
   "note": ""
  },
  {
   "property": "C66",
   "status": "proved",
   "theorems": [
    "C66_sort",
    "C66_reverse",
    "C66_merge"
   ],
   "note": ""
  },
  {
   "property": "C67",
   "status": "proved",
   "theorems": [
    "C67_group",
    "C67_cover",
    "C67_groupby"
   ],
   "note": ""
  },
  {
   "property": "C68",
   "status": "proved",
   "theorems": [
    "C68_count",
    "C68_foreach",
    "C68_foreach_ordered",
    "C68_any",
    "C68_any_none",
    "C68_all",
    "C68_all_every",
    "C68_findfirst",
    "C68_findlast"
   ],
   "note": ""
  },
  {
   "property": "C69",
   "status": "proved",
   "theorems": [
    "C69_peek"
   ],
   "note": ""
  },
  {
   "property": "C70",
   "status": "proved",
   "theorems": [
    "C70_pipeline",
    "C70_pipeline_empty",
    "C70_terminal",
    "C70_completes",
    "C70_deterministic"
   ],
   "note": ""
  },
  {
   "property": "C71",
   "status": "proved",
   "theorems": [
    "C71_concat",
    "C71_once",
    "C71_completes",
    "C71_finishes"
   ],
   "note": ""
  },
  {
   "property": "C72",
   "status": "proved",
   "theorems": [
    "C72_walk",
    "C72_workers",
    "C72_safe",
    "C72_close_last",
    "C72_completes",
    "C72_finishes",
    "C72_order",
    "C72_default",
    "C72_map",
    "C72_filter",
    "C72_flatmap"
   ],
   "note": ""
  },
  {
   "property": "C73",
   "status": "proved",
   "theorems": [
    "C73_finish",
    "C73_once"
   ],
   "note": ""
  },
  {
   "property": "C74",
   "status": "proved",
   "theorems": [
    "C74_copy",
    "C74_once",
    "C74_lag",
    "C74_completes",
    "C74_starved",
    "C74_channels"
   ],
   "note": ""
  },
  {
   "property": "C75",
   "status": "proved",
   "theorems": [
    "C75_output",
    "C75_calls",
    "C75_workers",
    "C75_safe",
    "C75_completes",
    "C75_finishes",
    "C75_zero",
    "C75_options",
    "C75_panic_witness"
   ],
   "note": ""
  },
  {
   "property": "C76",
   "status": "proved",
   "theorems": [
    "C76_late_calls",
    "C76_output",
    "C76_closes",
    "C76_closes_alone",
    "C76_generator_stuck",
    "C76_after_close_witness",
    "C76_late_call_witness",
    "C76_send_on_closed_witness",
    "C75_calls",
    "C75_safe",
    "C75_workers"
   ],
   "note": ""
  },
  {
   "property": "C77",
   "status": "proved",
   "theorems": [
    "C77_trim_left",
    "C77_trim_right",
    "C77_trim",
    "C77_trim_space"
   ],
   "note": ""
  },
  {
   "property": "C78",
   "status": "proved",
   "theorems": [
    "C78_linearizable",
    "C78_own_shard",
    "C78_no_crash"
   ],
   "note": ""
  },
  {
   "property": "C79",
   "status": "proved",
   "theorems": [
    "C79_one_shard",
    "C79_one_key",
    "C79_half_cleared_witness",
    "C79_half_cleared_refuted"
   ],
   "note": ""
  },
  {
   "property": "C80",
   "status": "proved",
   "theorems": [
    "C80_pipeline",
    "C80_terminal",
    "C80_completes",
    "C80_map_sort",
    "C80_map_filter_count",
    "C80_map_distinct",
    "C80_map_limit"
   ],
   "note": ""
  },
  {
   "property": "C81",
   "status": "proved",
   "theorems": [
    "C81_distinct_total",
    "C81_peek_total",
    "C81_distinct",
    "C81_peek_never_ends"
   ],
   "note": ""
  },
  {
   "property": "C82",
   "status": "proved",
   "theorems": [
    "C82_no_deadlock",
    "C82_bounded",
    "C82_all_return",
    "C82_create_reenters",
    "C82_close_excludes",
    "C82_close_reenters"
   ],
   "note": ""
  },
  {
   "property": "C83",
   "status": "proved",
   "theorems": [
    "C83_no_deadlock",
    "C83_bounded",
    "C83_all_return",
    "C83_can_finish"
   ],
   "note": ""
  },
  {
   "property": "C84",
   "status": "proved",
   "theorems": [
    "C84_no_deadlock",
    "C84_bounded",
    "C84_all_return",
    "C84_can_finish"
   ],
   "note": ""
  },
  {
   "property": "C85",
   "status": "proved",
   "theorems": [
    "C85_codec",
    "C85_payload",
    "C85_payload_stays",
    "C85_no_leak",
    "C85_can_return",
    "C85_any_call",
    "C85_any_answer",
    "C85_any_input"
   ],
   "note": ""
  },
  {
   "property": "C86",
   "status": "proved",
   "theorems": [
    "C86_any_call",
    "C86_strings_never_change",
    "C86_result",
    "C86_reverses",
    "C86_no_panic",
    "C86_progress",
    "C86_bounded"
   ],
   "note": ""
  },
  {
   "property": "C87",
   "status": "proved",
   "theorems": [
    "C87_any_call",
    "C87_one_pool",
    "C87_refines",
    "C87_malloc",
    "C87_disjoint",
    "C87_reusable",
    "C87_no_panic",
    "C87_no_deadlock",
    "C87_bounded",
    "C87_all_return",
    "C87_can_finish"
   ],
   "note": ""
  },
  {
   "property": "C88",
   "status": "proved",
   "theorems": [
    "C88_expression",
    "C88_terminal",
    "C88_completes",
    "C88_concat_sort",
    "C88_concat_count",
    "C88_nested",
    "C88_order"
   ],
   "note": ""
  },
  {
   "property": "C89",
   "status": "proved",
   "theorems": [
    "C89_foreach",
    "C89_foreach_total",
    "C89_foreach_ordered",
    "C89_foreach_ordered_total",
    "C89_any",
    "C89_any_match",
    "C89_any_none",
    "C89_all",
    "C89_all_mismatch",
    "C89_all_every",
    "C89_sort",
    "C89_sort_total",
    "C89_group",
    "C89_group_total",
    "C89_map",
    "C89_map_total",
    "C89_arguments",
    "C89_leak"
   ],
   "note": ""
  },
  {
   "property": "C90",
   "status": "proved",
   "theorems": [
    "C90_chunks",
    "C90_never_waits",
    "C90_outer_progress",
    "C90_bound",
    "C90_complete",
    "C90_chunks_exist"
   ],
   "note": ""
  },
  {
   "property": "C91",
   "status": "proved",
   "theorems": [
    "C91_each_once",
    "C91_end",
    "C91_finishes",
    "C91_results",
    "C91_one_caller",
    "C91_used_up",
    "C91_count_after_first",
    "C91_every_division"
   ],
   "note": ""
  },
  {
   "property": "C92",
   "status": "proved",
   "theorems": [
    "C92_retry",
    "C92_do_outcome",
    "C92_do_defer_panics",
    "C92_do_defer_leaves",
    "C92_do_no_leak",
    "C92_worker_slot_lost",
    "C92_worker_starved",
    "C92_worker_crash",
    "C92_worker_otherwise"
   ],
   "note": ""
  },
  {
   "property": "C93",
   "status": "proved",
   "theorems": [
    "C93_any_call",
    "C93_otherwise",
    "C93_stores",
    "C93_in_progress",
    "C93_any_order",
    "C93_visible",
    "C93_no_deadlock",
    "C93_bounded",
    "C93_torn_witness"
   ],
   "note": ""
  },
  {
   "property": "C94",
   "status": "proved",
   "theorems": [
    "C94_bounded",
    "C94_every_run",
    "C94_read_never_waits",
    "C94_write_waits_only_for_the_first",
    "C94_no_wait_after_first",
    "C94_no_deadlock",
    "C94_chan_bounded"
   ],
   "note": ""
  },
  {
   "property": "C95",
   "status": "proved",
   "theorems": [
    "C95_calls",
    "C95_unhashable",
    "C95_never_stuck",
    "C95_nan",
    "C95_nan_piles_up"
   ],
   "note": ""
  },
  {
   "property": "C96",
   "status": "proved",
   "theorems": [
    "C96_bounded",
    "C96_no_deadlock",
    "C96_holder_moves",
    "C96_take_waits_for",
    "C96_add_waits_for",
    "C96_alone"
   ],
   "note": ""
  },
  {
   "property": "C97",
   "status": "proved",
   "theorems": [
    "C97_bounded",
    "C97_finished"
   ],
   "note": ""
  },
  {
   "property": "C98",
   "status": "proved",
   "theorems": [
    "C98_distinct",
    "C98_distinct_cut",
    "C98_group",
    "C98_group_panic",
    "C98_map",
    "C98_map_panic",
    "C98_cover",
    "C98_unequal_to_itself",
    "C98_all_unequal"
   ],
   "note": ""
  },
  {
   "property": "C99",
   "status": "proved",
   "theorems": [
    "C99_no_deadlock",
    "C99_bounded",
    "C99_all_return",
    "C99_can_finish",
    "C99_range_meets_unequal",
    "C99_range_meets_no_more",
    "C99_linearizable",
    "C99_clear_linearizable",
    "C99_unhashable_panics",
    "C99_only_unhashable_panics",
    "C99_panic_harmless",
    "C99_unequal_key_alone"
   ],
   "note": ""
  },
  {
   "property": "C100",
   "status": "proved",
   "theorems": [
    "C100_no_race",
    "C100_happens_before",
    "C100_clear_refuted"
   ],
   "note": ""
  },
  {
   "property": "C101",
   "status": "proved",
   "theorems": [
    "C101_refines",
    "C101_linearizable",
    "C101_clear_linearizable",
    "C101_unhashable_panics",
    "C101_only_unhashable_panics",
    "C101_unequal_key_alone",
    "C101_range_meets_unequal"
   ],
   "note": ""
  },
  {
   "property": "C102",
   "status": "proved",
   "theorems": [
    "C102_bounded",
    "C102_no_deadlock",
    "C102_all_return",
    "C102_can_finish"
   ],
   "note": ""
  },
  {
   "property": "C103",
   "status": "proved",
   "theorems": [
    "C103_rm_race_free",
    "C103_rm_create_before_get",
    "C103_rm_create_before_close",
    "C103_rm_one_done",
    "C103_ring_race_free",
    "C103_ring_publishes"
   ],
   "note": ""
  },
  {
   "property": "C104",
   "status": "proved",
   "theorems": [
    "C104_guarded",
    "C104_word",
    "C104_handover"
   ],
   "note": ""
  },
  {
   "property": "C105",
   "status": "proved",
   "theorems": [
    "C105_chan_value",
    "C105_chan_end",
    "C105_chan_false",
    "C105_chan_one",
    "C105_chan_once",
    "C105_value_get",
    "C105_value_false",
    "C105_value_one"
   ],
   "note": ""
  },
  {
   "property": "C106",
   "status": "proved",
   "theorems": [
    "C106_return",
    "C106_defer",
    "C106_start",
    "C106_once",
    "C106_ctx_witness"
   ],
   "note": ""
  },
  {
   "property": "C107",
   "status": "proved",
   "theorems": [
    "C107_finish",
    "C107_start",
    "C107_item",
    "C107_concat",
    "C107_concat_end",
    "C107_one",
    "C107_two_witness"
   ],
   "note": ""
  },
  {
   "property": "C108",
   "status": "proved",
   "theorems": [
    "C108_start",
    "C108_defer",
    "C108_one",
    "C108_one_task",
    "C108_cancel_witness"
   ],
   "note": ""
  },
  {
   "property": "C109",
   "status": "proved",
   "theorems": [
    "C109_runs",
    "C109_start",
    "C109_item",
    "C109_end",
    "C109_end_all",
    "C109_one",
    "C109_cancel_witness"
   ],
   "note": ""
  },
  {
   "property": "C110",
   "status": "proved",
   "theorems": [
    "C110_walk",
    "C110_concat",
    "C110_map",
    "C110_map_closed",
    "C110_map_fault",
    "C110_chan",
    "C110_rm",
    "C110_ring",
    "C110_do",
    "C110_worker",
    "C42_no_panic",
    "C71_once",
    "C72_safe",
    "C76_send_on_closed_witness"
   ],
   "note": "A trace has the operations that succeed; that none panics is C42_no_panic, C71_once, C72_safe and C110_map_fault. The exception, a Write of a cancelled mapreduce.Map on the closed output, is C76_send_on_closed_witness; C110_map_closed says that it needs a cancellation."
  },
  {
   "property": "C111",
   "status": "proved",
   "theorems": [
    "C111_runs",
    "C111_race_free",
    "C111_malloc",
    "C111_held",
    "C111_feasible",
    "C111_double_free_witness"
   ],
   "note": ""
  },
  {
   "property": "C112",
   "status": "proved",
   "theorems": [
    "C112_race_free",
    "C112_get",
    "C112_held",
    "C112_feasible",
    "C112_runs",
    "C112_alias_witness"
   ],
   "note": ""
  },
  {
   "property": "C113",
   "status": "proved",
   "theorems": [
    "C113_feasible",
    "C113_item",
    "C113_received",
    "C113_end",
    "C113_ends",
    "C113_done",
    "C113_calm",
    "C113_calm_sorted",
    "C113_sources",
    "C113_peek_witness",
    "C113_limit_witness"
   ],
   "note": ""
  },
  {
   "property": "C114",
   "status": "proved",
   "theorems": [
    "C114_feasible",
    "C114_item",
    "C114_end",
    "C114_readers_witness"
   ],
   "note": ""
  },
  {
   "property": "C115",
   "status": "proved",
   "theorems": [
    "C115_no_race",
    "C115_happens_before",
    "C115_shard",
    "C115_clear_refuted"
   ],
   "note": ""
  },
  {
   "property": "C116",
   "status": "proved",
   "theorems": [
    "C116_holder",
    "C116_others",
    "C116_lock",
    "C116_no_self_deadlock",
    "C116_holder_goes_on",
    "C116_no_deadlock",
    "C116_shared",
    "C116_shared_one",
    "C116_shared_no_deadlock"
   ],
   "note": ""
  }
 ]
}