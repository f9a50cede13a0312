(** * The assumptions of all property theorems at once

    [all_theorems] mentions every theorem and example named Cnn_*; Print Assumptions of it lists
    every axiom any of them uses.  It prints "Closed under the global context": none. *)
From Verif Require BytesSyncProps CallersProps ChunkProps CopyProps CopySyncProps FanFeas FanProps FanSyncProps HackProps JoinerProps MStoreProps MStoreTorn MapAnyLiveProps MapAnyProps MapClear MapClrProps MapConcProps MapConcRuns MapFineLiveProps MapFineProps MapKeyProps MapLiveProps MapLockProps MapRaceProps MapRedFeas MapRedProps MapRedSyncProps MapSeqProps NetSyncProps OnceFeas OnceSyncProps PipeProps PoolProps RMFeas RMLiveProps RMProps RMSyncProps RingFeas RingSyncProps ShareProps SharedClrProps SharedConcProps SharedLiveProps SharedProps SharedRaceProps SpinProps SpinSyncProps StreamKeyProps TaskFailProps TaskFeas TaskSyncProps TreeProps WorkerFeas WorkerSyncProps XBarrierProps XBinConcProps XBinaryProps XBytesProps XIOProps XIOSyncProps XMathProps XOnceLiveProps XOnceProps XPanicProps XQuitProps XRingLiveProps XRingProps XStreamProps XStringProps XTaskProps XWorkerLiveProps XWorkerProps.

Definition part0 := (
  @XStringProps.C01_ex1,
  @XStringProps.C01_ex2,
  @XStringProps.C01_ex3,
  @XStringProps.C01_len_app,
  @XStringProps.C01_len_bounds,
  @XStringProps.C01_len_step,
  @XStringProps.C01_len_valid,
  @XStringProps.C02_ex,
  @XStringProps.C02_invalid_rune,
  @XStringProps.C02_pad_left,
  @XStringProps.C02_pad_right,
  @XStringProps.C02_pad_space,
  @XStringProps.C03_ex,
  @XStringProps.C03_pad_center,
  @XStringProps.C03_pad_center_space,
  @XStringProps.C04_ex,
  @XStringProps.C04_remove_char,
  @XStringProps.C04_repeat,
  @XStringProps.C05_ex,
  @XStringProps.C05_left_right).
Definition part1 := (
  @XStringProps.C05_split,
  @XStringProps.C05_sub,
  @XStringProps.C05_sub_empty,
  @XStringProps.C06_ex,
  @XStringProps.C06_rotate_ascii,
  @XStringProps.C06_rotate_general,
  @XStringProps.C06_rotate_refuted,
  @XStringProps.C06_rotate_single_byte,
  @XStringProps.C07_ex,
  @XStringProps.C07_must_reverse,
  @XStringProps.C07_replacement_char_refuted,
  @XStringProps.C07_reverse,
  @XStringProps.C08_each_permutation_once,
  @XStringProps.C08_each_result_once,
  @XStringProps.C08_empty,
  @XStringProps.C08_ex,
  @XStringProps.C08_permutation,
  @XStringProps.C09_ex,
  @XStringProps.C09_idempotent_refuted,
  @XStringProps.C09_remove_string).
Definition part2 := (
  @XStringProps.C09_removed_unique,
  @XStringProps.C09_unchanged,
  @XStringProps.C10_any_none,
  @XStringProps.C10_classes,
  @XStringProps.C10_ex,
  @XStringProps.C10_implications,
  @XStringProps.C10_no_arguments,
  @XStringProps.C10_white_space,
  @XStringProps.C11_accepts_numbers,
  @XStringProps.C11_ex,
  @XStringProps.C11_is_numerical,
  @XStringProps.C11_only_numbers_refuted,
  @XStringProps.C11_rejects_non_digit_start,
  @XStringProps.C12_few,
  @XStringProps.C12_huge_refuted,
  @XStringProps.C12_index_of_difference,
  @XStringProps.C12_two,
  @XStringProps.C13_common_prefix,
  @XStringProps.C13_common_prefix_none,
  @XStringProps.C13_difference).
Definition part3 := (
  @XStringProps.C13_difference_prefix,
  @XStringProps.C13_ex,
  @XStringProps.C13_ill_formed_refuted,
  @XStringProps.C14_contains_ignore_case,
  @XStringProps.C14_ex,
  @XStringProps.C14_lower_ok,
  @XStringProps.C14_region_matches,
  @XStringProps.C15_empty_equals_all,
  @XStringProps.C15_equals_ignore_case,
  @XStringProps.C15_lower_case_equal,
  @XStringProps.C15_symmetric_refuted,
  @XStringProps.C16_ends_with,
  @XStringProps.C16_ends_with_any,
  @XStringProps.C16_ends_with_case,
  @XStringProps.C16_ends_with_ignore_case,
  @XStringProps.C16_ex,
  @XStringProps.C17_ascii,
  @XStringProps.C17_delete_whitespace,
  @XStringProps.C17_delete_whitespace_text,
  @XStringProps.C17_ex).
Definition part4 := (
  @XStringProps.C17_multibyte_refuted,
  @XStringProps.C18_abbreviate,
  @XStringProps.C18_ex,
  @XStringProps.C18_negative_offset_refuted,
  @XStringProps.C18_no_marker,
  @XStringProps.C18_small_offset,
  @XStringProps.C18_width,
  @XStringProps.C18_width_refuted,
  @XStringProps.C19_contains,
  @XStringProps.C19_contains_any,
  @XStringProps.C19_contains_empty_refuted,
  @XStringProps.C19_defaults,
  @XStringProps.C19_equals_any,
  @XStringProps.C19_ex,
  @XStringProps.C19_index,
  @XStringProps.C19_index_any_ex,
  @XStringProps.C19_index_any_first,
  @XStringProps.C19_index_any_none,
  @JoinerProps.C20_ex,
  @JoinerProps.C20_general).
Definition part5 := (
  @JoinerProps.C20_join,
  @JoinerProps.C20_leading_step_refuted,
  @JoinerProps.C20_options,
  @JoinerProps.C21_cap,
  @JoinerProps.C21_counts,
  @JoinerProps.C21_grow_panics,
  @JoinerProps.C21_len,
  @JoinerProps.C22_err,
  @JoinerProps.C22_ex,
  @XMathProps.C23_case,
  @XMathProps.C23_int_max_min_exact,
  @XMathProps.C24_case,
  @XMathProps.C24_exact_refuted,
  @XMathProps.C24_int_max_min_rounds,
  @XMathProps.C24_overflow,
  @XMathProps.C25_case,
  @XMathProps.C25_float32,
  @XMathProps.C25_float64_commutes,
  @XMathProps.C25_float64_finite,
  @XMathProps.C25_float64_special).
Definition part6 := (
  @XBinaryProps.C26_ex,
  @XBinaryProps.C26_round_trip,
  @XBinaryProps.C26_writes,
  @XBinaryProps.C27_ex,
  @XBinaryProps.C27_long_refuted,
  @XBinaryProps.C27_prefix,
  @XBinaryProps.C28_bool,
  @XBinaryProps.C28_bytes_chunked,
  @XBinaryProps.C28_bytes_exact,
  @XBinaryProps.C28_bytes_returns,
  @XBinaryProps.C28_bytes_safe,
  @XBinaryProps.C28_bytes_truncated,
  @XBinaryProps.C28_chunked_header_refuted,
  @XBinaryProps.C28_ex,
  @XBinaryProps.C28_stale_bool_refuted,
  @XBinaryProps.C28_uint16,
  @XBinaryProps.C28_uint32,
  @XBytesProps.C29_ex,
  @XBytesProps.C29_malloc,
  @XBytesProps.C29_mallocsize).
Definition part7 := (
  @XBytesProps.C29_returns,
  @XBytesProps.C30_contents_stable,
  @XBytesProps.C30_disjoint,
  @XBytesProps.C30_double_free_refuted,
  @XBytesProps.C30_stale_refuted,
  @XIOProps.C31_alias_refuted,
  @XIOProps.C31_can_read,
  @XIOProps.C31_ex,
  @XIOProps.C31_isolated,
  @XIOProps.C31_same,
  @XIOProps.C31_size_new,
  @XIOProps.C31_size_refuted,
  @XIOProps.C31_wrap_ex,
  @XIOProps.C32_alias_refuted,
  @XIOProps.C32_can_flush,
  @XIOProps.C32_dropped,
  @XIOProps.C32_ex,
  @XIOProps.C32_flush,
  @XIOProps.C32_isolated,
  @XIOProps.C32_same).
Definition part8 := (
  @XIOProps.C32_size_new,
  @XIOProps.C32_size_refuted,
  @XIOProps.C32_wrap_ex,
  @XRingProps.C33_ex,
  @XRingProps.C33_new,
  @XRingProps.C33_overflow_refuted,
  @XRingProps.C33_stream_ring,
  @XRingProps.C33_take,
  @CallersProps.C34_any_call,
  @XRingProps.C34_ex,
  @XRingProps.C34_exclusive,
  @XRingProps.C34_no_panic,
  @XRingProps.C34_take,
  @XTaskProps.C35_deterministic,
  @XTaskProps.C35_ex,
  @XTaskProps.C35_failure,
  @XTaskProps.C35_maxint_diverges,
  @XTaskProps.C35_negative_refuted,
  @XTaskProps.C35_options,
  @XTaskProps.C35_success).
Definition part9 := (
  @XTaskProps.C36_any_do,
  @XTaskProps.C36_each_outcome,
  @XTaskProps.C36_ex,
  @XTaskProps.C36_outcome,
  @XTaskProps.C36_predone,
  @XTaskProps.C36_start_once,
  @XTaskProps.C37_after_outcome,
  @XTaskProps.C37_once,
  @XTaskProps.C38_ended,
  @XTaskProps.C38_no_leak,
  @XTaskProps.C39_bounded,
  @XTaskProps.C39_goexit_refuted,
  @XTaskProps.C39_progress,
  @CallersProps.C40_any_call,
  @XWorkerProps.C40_bound,
  @XWorkerProps.C40_ex,
  @XWorkerProps.C40_two_contexts_refuted,
  @XWorkerProps.C41_all_free,
  @XWorkerProps.C41_blocks_only_when_full,
  @XWorkerProps.C41_new).
Definition part10 := (
  @XWorkerProps.C41_once,
  @XWorkerProps.C41_release_enabled,
  @XWorkerProps.C41_size0,
  @XWorkerProps.C41_slots,
  @CallersProps.C42_any_call,
  @XOnceProps.C42_available,
  @XOnceProps.C42_ex,
  @XOnceProps.C42_exactly_one,
  @XOnceProps.C42_first,
  @XOnceProps.C42_no_block,
  @XOnceProps.C42_no_panic,
  @XOnceProps.C42_one,
  @XOnceProps.C42_received,
  @CallersProps.C43_any_call,
  @XOnceProps.C43_ex,
  @XOnceProps.C43_exactly_one,
  @XOnceProps.C43_no_panic,
  @XOnceProps.C43_one,
  @XOnceProps.C43_panics_refuted,
  @XOnceProps.C43_value).
Definition part11 := (
  @XBarrierProps.C44_cancelled,
  @XBarrierProps.C44_closed_true,
  @XBarrierProps.C44_ex,
  @XBarrierProps.C44_fifo,
  @XBarrierProps.C44_not_cancellable,
  @XBarrierProps.C44_not_cancelled,
  @XBarrierProps.C44_others,
  @XBarrierProps.C44_progress,
  @XBarrierProps.C44_result,
  @XBarrierProps.C45_bounded,
  @XBarrierProps.C45_cancelled,
  @XBarrierProps.C45_close_panics,
  @XBarrierProps.C45_ex,
  @XBarrierProps.C45_fifo,
  @XBarrierProps.C45_not_cancellable,
  @XBarrierProps.C45_others,
  @XBarrierProps.C45_progress,
  @XBarrierProps.C45_result,
  @SpinProps.C46_any_call,
  @SpinProps.C46_attempt).
Definition part12 := (
  @SpinProps.C46_ex,
  @SpinProps.C46_exclusion,
  @SpinProps.C46_failure,
  @SpinProps.C46_lock,
  @SpinProps.C46_owned,
  @SpinProps.C46_trylock,
  @SpinProps.C46_undisciplined_refuted,
  @SpinProps.C47_backoff,
  @SpinProps.C47_backoff_prefix,
  @SpinProps.C47_never_blocks,
  @SpinProps.C47_only_others,
  @SpinProps.C47_pauses,
  @SpinProps.C47_progress,
  @SpinProps.C47_starvation,
  @MapSeqProps.C48_ex,
  @MapSeqProps.C48_refines,
  @MapSeqProps.C49_clear,
  @MapSeqProps.C49_ex,
  @MapSeqProps.C49_range,
  @MapSeqProps.C49_unchanged).
Definition part13 := (
  @CallersProps.C50_any_call,
  @CallersProps.C50_any_outcome,
  @MapConcProps.C50_linearizable,
  @MapConcProps.C50_no_crash,
  @MapConcProps.C50_one_instant,
  @MapConcProps.C50_progress,
  @MapConcProps.C51_complete,
  @MapConcProps.C51_no_key_twice,
  @MapConcProps.C51_present_is_visited,
  @MapConcProps.C51_stop_stops,
  @MapConcProps.C51_values_current,
  @MapConcRuns.C52_lost_update_witness,
  @MapConcProps.C52_present,
  @MapConcProps.C53_absent,
  @MapConcProps.C53_at_most_twice,
  @MapConcProps.C53_not_called_when_present,
  @MapConcProps.C53_returns_last_answer,
  @MapConcRuns.C53_two_calls_witness,
  @MapConcProps.C53_when_called,
  @MapConcProps.C54_computing_shuts).
Definition part14 := (
  @MapConcProps.C54_panic_shuts,
  @MapConcProps.C54_panic_without_lock,
  @MapConcRuns.C54_panic_witness,
  @MapConcProps.C54_range_holds_no_lock,
  @MapClrProps.C55_atomic_clear_linearizable,
  @MapClrProps.C55_atomic_clear_no_crash,
  @MapClrProps.C55_callback_after_clear_witness,
  @MapClrProps.C55_callback_order_witness,
  @MapClear.C55_contents_change,
  @MapClear.C55_inversion_witness,
  @MapClear.C55_load_without_clear,
  @MapClear.C55_store_value,
  @MapClear.C55_torn_read_witness,
  @SharedProps.C56_count,
  @SharedProps.C56_ex,
  @SharedProps.C56_hash,
  @SharedProps.C56_none,
  @SharedProps.C56_none_ex,
  @SharedProps.C56_wrap,
  @SharedProps.C56_zero).
Definition part15 := (
  @CallersProps.C57_any_call,
  @SharedProps.C57_ex,
  @SharedProps.C57_ex2,
  @SharedProps.C57_range,
  @SharedProps.C57_refines,
  @CallersProps.C58_any_call,
  @CallersProps.C58_any_outcome,
  @RMProps.C58_ex,
  @RMProps.C58_ex_fail,
  @RMProps.C58_failed,
  @RMProps.C58_flight,
  @RMProps.C58_join,
  @RMProps.C58_one_create,
  @RMProps.C58_same,
  @RMProps.C58_stored,
  @RMProps.C59_close,
  @RMProps.C59_lookup,
  @RMProps.C59_once,
  @RMProps.C59_present,
  @RMProps.C59_remove).
Definition part16 := (
  @RMProps.C59_remove_ret,
  @RMProps.C59_removed_witness,
  @RMProps.C60_after_close,
  @RMProps.C60_closed_witness,
  @RMProps.C60_create_exits,
  @RMProps.C60_create_panics,
  @RMProps.C60_ex,
  @RMProps.C60_ex_exit,
  @RMProps.C60_ex_nil,
  @RMProps.C60_get_panics,
  @RMProps.C60_locked,
  @RMProps.C60_nil_create,
  @XStreamProps.C61_buffer,
  @XStreamProps.C61_empty,
  @XStreamProps.C61_from,
  @XStreamProps.C61_of,
  @XStreamProps.C61_of_unread,
  @XStreamProps.C62_distinct,
  @XStreamProps.C62_ex,
  @XStreamProps.C62_firsts).
Definition part17 := (
  @XStreamProps.C63_limit,
  @XStreamProps.C63_limit_closes,
  @XStreamProps.C63_negative,
  @XStreamProps.C63_skip,
  @XStreamProps.C64_negative,
  @XStreamProps.C64_tail,
  @XStreamProps.C65_ex,
  @XStreamProps.C65_panics,
  @XStreamProps.C65_split,
  @XStreamProps.C65_splitsteam,
  @XStreamProps.C66_ex,
  @XStreamProps.C66_merge,
  @XStreamProps.C66_reverse,
  @XStreamProps.C66_sort,
  @XStreamProps.C67_cover,
  @XStreamProps.C67_ex,
  @XStreamProps.C67_group,
  @XStreamProps.C67_groupby,
  @XStreamProps.C68_all,
  @XStreamProps.C68_all_every).
Definition part18 := (
  @XStreamProps.C68_any,
  @XStreamProps.C68_any_none,
  @XStreamProps.C68_count,
  @XStreamProps.C68_findfirst,
  @XStreamProps.C68_findlast,
  @XStreamProps.C68_foreach,
  @XStreamProps.C68_foreach_ordered,
  @XStreamProps.C69_peek,
  @XStreamProps.C70_completes,
  @XStreamProps.C70_deterministic,
  @XStreamProps.C70_ex,
  @XStreamProps.C70_ex_terminal,
  @XStreamProps.C70_pipeline,
  @XStreamProps.C70_pipeline_empty,
  @XStreamProps.C70_terminal,
  @FanProps.C71_completes,
  @FanProps.C71_concat,
  @FanProps.C71_ex,
  @FanProps.C71_finishes,
  @FanProps.C71_once).
Definition part19 := (
  @FanProps.C72_close_last,
  @FanProps.C72_completes,
  @FanProps.C72_default,
  @FanProps.C72_ex,
  @FanProps.C72_filter,
  @FanProps.C72_finishes,
  @FanProps.C72_flatmap,
  @FanProps.C72_map,
  @FanProps.C72_order,
  @FanProps.C72_safe,
  @FanProps.C72_walk,
  @FanProps.C72_workers,
  @FanProps.C73_finish,
  @FanProps.C73_once,
  @CopyProps.C74_channels,
  @CopyProps.C74_completes,
  @CopyProps.C74_copy,
  @CopyProps.C74_ex,
  @CopyProps.C74_lag,
  @CopyProps.C74_once).
Definition part20 := (
  @CopyProps.C74_starved,
  @CopyProps.C74_starved_ex,
  @MapRedProps.C75_calls,
  @MapRedProps.C75_completes,
  @MapRedProps.C75_ex,
  @MapRedProps.C75_finishes,
  @MapRedProps.C75_options,
  @MapRedProps.C75_output,
  @MapRedProps.C75_panic_witness,
  @MapRedProps.C75_safe,
  @MapRedProps.C75_workers,
  @MapRedProps.C75_zero,
  @MapRedProps.C76_after_close_witness,
  @MapRedProps.C76_closes,
  @MapRedProps.C76_closes_alone,
  @MapRedProps.C76_generator_stuck,
  @MapRedProps.C76_late_call_witness,
  @MapRedProps.C76_late_calls,
  @MapRedProps.C76_output,
  @MapRedProps.C76_send_on_closed_witness).
Definition part21 := (
  @XStringProps.C77_ex,
  @XStringProps.C77_trim,
  @XStringProps.C77_trim_left,
  @XStringProps.C77_trim_right,
  @XStringProps.C77_trim_space,
  @SharedConcProps.C78_ex,
  @SharedConcProps.C78_linearizable,
  @SharedConcProps.C78_no_crash,
  @SharedConcProps.C78_own_shard,
  @SharedClrProps.C79_ex_part,
  @SharedClrProps.C79_ex_shards,
  @SharedClrProps.C79_half_cleared_refuted,
  @SharedClrProps.C79_half_cleared_witness,
  @SharedClrProps.C79_one_key,
  @SharedClrProps.C79_one_shard,
  @PipeProps.C80_completes,
  @PipeProps.C80_ex,
  @PipeProps.C80_ex_fit,
  @PipeProps.C80_ex_run,
  @PipeProps.C80_map_distinct).
Definition part22 := (
  @PipeProps.C80_map_filter_count,
  @PipeProps.C80_map_limit,
  @PipeProps.C80_map_sort,
  @PipeProps.C80_pipeline,
  @PipeProps.C80_terminal,
  @XPanicProps.C81_distinct,
  @XPanicProps.C81_distinct_total,
  @XPanicProps.C81_ex_distinct,
  @XPanicProps.C81_ex_hyps,
  @XPanicProps.C81_ex_peek,
  @XPanicProps.C81_peek_never_ends,
  @XPanicProps.C81_peek_total,
  @RMLiveProps.C82_all_return,
  @RMLiveProps.C82_bounded,
  @RMLiveProps.C82_close_excludes,
  @RMLiveProps.C82_close_reenters,
  @RMLiveProps.C82_create_reenters,
  @RMLiveProps.C82_ex,
  @RMLiveProps.C82_ex_close,
  @RMLiveProps.C82_ex_create).
Definition part23 := (
  @RMLiveProps.C82_ex_rest,
  @RMLiveProps.C82_no_deadlock,
  @MapLiveProps.C83_all_return,
  @MapLiveProps.C83_bounded,
  @MapLiveProps.C83_can_finish,
  @MapLiveProps.C83_ex,
  @MapLiveProps.C83_no_deadlock,
  @SharedLiveProps.C84_all_return,
  @SharedLiveProps.C84_bounded,
  @SharedLiveProps.C84_can_finish,
  @SharedLiveProps.C84_ex,
  @SharedLiveProps.C84_no_deadlock,
  @XBinConcProps.C85_any_answer,
  @XBinConcProps.C85_any_call,
  @XBinConcProps.C85_any_input,
  @XBinConcProps.C85_can_return,
  @XBinConcProps.C85_codec,
  @XBinConcProps.C85_ex,
  @XBinConcProps.C85_no_leak,
  @XBinConcProps.C85_payload).
Definition part24 := (
  @XBinConcProps.C85_payload_stays,
  @CallersProps.C86_any_call,
  @HackProps.C86_bounded,
  @HackProps.C86_ex,
  @HackProps.C86_no_panic,
  @HackProps.C86_progress,
  @HackProps.C86_result,
  @HackProps.C86_reverses,
  @HackProps.C86_strings_never_change,
  @PoolProps.C87_all_return,
  @CallersProps.C87_any_call,
  @PoolProps.C87_bounded,
  @PoolProps.C87_can_finish,
  @PoolProps.C87_disjoint,
  @PoolProps.C87_ex,
  @PoolProps.C87_malloc,
  @PoolProps.C87_no_deadlock,
  @PoolProps.C87_no_panic,
  @PoolProps.C87_one_pool,
  @PoolProps.C87_refines).
Definition part25 := (
  @PoolProps.C87_reusable,
  @TreeProps.C88_completes,
  @TreeProps.C88_concat_count,
  @TreeProps.C88_concat_sort,
  @TreeProps.C88_ex,
  @TreeProps.C88_ex_count,
  @TreeProps.C88_ex_may,
  @TreeProps.C88_ex_ok,
  @TreeProps.C88_expression,
  @TreeProps.C88_nested,
  @TreeProps.C88_order,
  @TreeProps.C88_terminal,
  @XQuitProps.C89_all,
  @XQuitProps.C89_all_every,
  @XQuitProps.C89_all_mismatch,
  @XQuitProps.C89_any,
  @XQuitProps.C89_any_match,
  @XQuitProps.C89_any_none,
  @XQuitProps.C89_arguments,
  @XQuitProps.C89_ex_hyps).
Definition part26 := (
  @XQuitProps.C89_ex_map,
  @XQuitProps.C89_foreach,
  @XQuitProps.C89_foreach_ordered,
  @XQuitProps.C89_foreach_ordered_total,
  @XQuitProps.C89_foreach_total,
  @XQuitProps.C89_group,
  @XQuitProps.C89_group_total,
  @XQuitProps.C89_leak,
  @XQuitProps.C89_map,
  @XQuitProps.C89_map_total,
  @XQuitProps.C89_sort,
  @XQuitProps.C89_sort_total,
  @ChunkProps.C90_bound,
  @ChunkProps.C90_chunks,
  @ChunkProps.C90_chunks_exist,
  @ChunkProps.C90_complete,
  @ChunkProps.C90_ex,
  @ChunkProps.C90_ex_chunks,
  @ChunkProps.C90_never_waits,
  @ChunkProps.C90_outer_progress).
Definition part27 := (
  @ShareProps.C91_count_after_first,
  @ShareProps.C91_each_once,
  @ShareProps.C91_end,
  @ShareProps.C91_every_division,
  @ShareProps.C91_finishes,
  @ShareProps.C91_one_caller,
  @ShareProps.C91_results,
  @ShareProps.C91_used_up,
  @TaskFailProps.C92_do_defer_leaves,
  @TaskFailProps.C92_do_defer_panics,
  @TaskFailProps.C92_do_no_leak,
  @TaskFailProps.C92_do_outcome,
  @TaskFailProps.C92_retry,
  @TaskFailProps.C92_worker_crash,
  @TaskFailProps.C92_worker_otherwise,
  @TaskFailProps.C92_worker_slot_lost,
  @TaskFailProps.C92_worker_starved,
  @CallersProps.C93_any_call,
  @MStoreProps.C93_any_order,
  @MStoreProps.C93_bounded).
Definition part28 := (
  @MStoreTorn.C93_ex_visible,
  @MStoreProps.C93_in_progress,
  @MStoreProps.C93_no_deadlock,
  @MStoreProps.C93_otherwise,
  @MStoreProps.C93_stores,
  @MStoreTorn.C93_torn_witness,
  @MStoreProps.C93_visible,
  @XOnceLiveProps.C94_bounded,
  @XOnceLiveProps.C94_chan_bounded,
  @XOnceLiveProps.C94_every_run,
  @XOnceLiveProps.C94_ex,
  @XOnceLiveProps.C94_no_deadlock,
  @XOnceLiveProps.C94_no_wait_after_first,
  @XOnceLiveProps.C94_read_never_waits,
  @XOnceLiveProps.C94_write_waits_only_for_the_first,
  @MapKeyProps.C95_calls,
  @MapKeyProps.C95_ex,
  @MapKeyProps.C95_nan,
  @MapKeyProps.C95_nan_piles_up,
  @MapKeyProps.C95_never_stuck).
Definition part29 := (
  @MapKeyProps.C95_unhashable,
  @XRingLiveProps.C96_add_waits_for,
  @XRingLiveProps.C96_alone,
  @XRingLiveProps.C96_bounded,
  @XRingLiveProps.C96_ex,
  @XRingLiveProps.C96_ex_empty,
  @XRingLiveProps.C96_holder_moves,
  @XRingLiveProps.C96_no_deadlock,
  @XRingLiveProps.C96_take_waits_for,
  @XWorkerLiveProps.C97_bounded,
  @XWorkerLiveProps.C97_ex,
  @XWorkerLiveProps.C97_finished,
  @StreamKeyProps.C98_all_unequal,
  @StreamKeyProps.C98_cover,
  @StreamKeyProps.C98_distinct,
  @StreamKeyProps.C98_distinct_cut,
  @StreamKeyProps.C98_ex_firsts,
  @StreamKeyProps.C98_ex_go,
  @StreamKeyProps.C98_ex_groups,
  @StreamKeyProps.C98_ex_hyps).
Definition part30 := (
  @StreamKeyProps.C98_ex_map,
  @StreamKeyProps.C98_ex_run,
  @StreamKeyProps.C98_group,
  @StreamKeyProps.C98_group_panic,
  @StreamKeyProps.C98_map,
  @StreamKeyProps.C98_map_panic,
  @StreamKeyProps.C98_unequal_to_itself,
  @MapAnyLiveProps.C99_all_return,
  @MapAnyLiveProps.C99_bounded,
  @MapAnyLiveProps.C99_can_finish,
  @MapAnyProps.C99_clear_linearizable,
  @MapAnyProps.C99_linearizable,
  @MapAnyLiveProps.C99_no_deadlock,
  @MapAnyProps.C99_only_unhashable_panics,
  @MapAnyProps.C99_panic_harmless,
  @MapAnyLiveProps.C99_range_meets_no_more,
  @MapAnyLiveProps.C99_range_meets_unequal,
  @MapAnyProps.C99_unequal_key_alone,
  @MapAnyProps.C99_unhashable_panics,
  @MapRaceProps.C100_clear_refuted).
Definition part31 := (
  @MapRaceProps.C100_ex,
  @MapRaceProps.C100_happens_before,
  @MapRaceProps.C100_no_race,
  @MapFineProps.C101_clear_linearizable,
  @MapFineProps.C101_ex,
  @MapFineProps.C101_linearizable,
  @MapFineProps.C101_only_unhashable_panics,
  @MapFineProps.C101_range_meets_unequal,
  @MapFineProps.C101_refines,
  @MapFineProps.C101_unequal_key_alone,
  @MapFineProps.C101_unhashable_panics,
  @MapFineLiveProps.C102_all_return,
  @MapFineLiveProps.C102_bounded,
  @MapFineLiveProps.C102_can_finish,
  @MapFineLiveProps.C102_ex,
  @MapFineLiveProps.C102_no_deadlock,
  @RingSyncProps.C103_ring_ex,
  @RingSyncProps.C103_ring_publishes,
  @RingSyncProps.C103_ring_race_free,
  @RMSyncProps.C103_rm_create_before_close).
Definition part32 := (
  @RMSyncProps.C103_rm_create_before_get,
  @RMSyncProps.C103_rm_ex,
  @RMSyncProps.C103_rm_one_done,
  @RMSyncProps.C103_rm_race_free,
  @SpinSyncProps.C104_ex,
  @SpinSyncProps.C104_guarded,
  @SpinSyncProps.C104_handover,
  @SpinSyncProps.C104_word,
  @OnceSyncProps.C105_chan_end,
  @OnceSyncProps.C105_chan_ex,
  @OnceSyncProps.C105_chan_false,
  @OnceSyncProps.C105_chan_once,
  @OnceSyncProps.C105_chan_one,
  @OnceSyncProps.C105_chan_value,
  @OnceSyncProps.C105_value_ex,
  @OnceSyncProps.C105_value_false,
  @OnceSyncProps.C105_value_get,
  @OnceSyncProps.C105_value_one,
  @TaskSyncProps.C106_ctx_witness,
  @TaskSyncProps.C106_defer).
Definition part33 := (
  @TaskSyncProps.C106_ex,
  @TaskSyncProps.C106_once,
  @TaskSyncProps.C106_return,
  @TaskSyncProps.C106_start,
  @FanSyncProps.C107_concat,
  @FanSyncProps.C107_concat_end,
  @FanSyncProps.C107_ex,
  @FanSyncProps.C107_finish,
  @FanSyncProps.C107_item,
  @FanSyncProps.C107_one,
  @FanSyncProps.C107_start,
  @FanSyncProps.C107_two_witness,
  @WorkerSyncProps.C108_cancel_witness,
  @WorkerSyncProps.C108_defer,
  @WorkerSyncProps.C108_ex,
  @WorkerSyncProps.C108_one,
  @WorkerSyncProps.C108_one_task,
  @WorkerSyncProps.C108_start,
  @MapRedSyncProps.C109_cancel_witness,
  @MapRedSyncProps.C109_end).
Definition part34 := (
  @MapRedSyncProps.C109_end_all,
  @MapRedSyncProps.C109_ex,
  @MapRedSyncProps.C109_item,
  @MapRedSyncProps.C109_one,
  @MapRedSyncProps.C109_runs,
  @MapRedSyncProps.C109_start,
  @OnceFeas.C110_chan,
  @FanFeas.C110_concat,
  @TaskFeas.C110_do,
  @MapRedFeas.C110_map,
  @MapRedFeas.C110_map_closed,
  @MapRedFeas.C110_map_closed_ex,
  @MapRedFeas.C110_map_fault,
  @RingFeas.C110_ring,
  @RMFeas.C110_rm,
  @FanFeas.C110_walk,
  @WorkerFeas.C110_worker,
  @BytesSyncProps.C111_double_free_witness,
  @BytesSyncProps.C111_ex,
  @BytesSyncProps.C111_feasible).
Definition part35 := (
  @BytesSyncProps.C111_held,
  @BytesSyncProps.C111_malloc,
  @BytesSyncProps.C111_race_free,
  @BytesSyncProps.C111_runs,
  @XIOSyncProps.C112_alias_witness,
  @XIOSyncProps.C112_ex,
  @XIOSyncProps.C112_feasible,
  @XIOSyncProps.C112_get,
  @XIOSyncProps.C112_held,
  @XIOSyncProps.C112_race_free,
  @XIOSyncProps.C112_runs,
  @NetSyncProps.C113_calm,
  @NetSyncProps.C113_calm_sorted,
  @NetSyncProps.C113_done,
  @NetSyncProps.C113_end,
  @NetSyncProps.C113_ends,
  @NetSyncProps.C113_ex,
  @NetSyncProps.C113_feasible,
  @NetSyncProps.C113_item,
  @NetSyncProps.C113_limit_witness).
Definition part36 := (
  @NetSyncProps.C113_peek_witness,
  @NetSyncProps.C113_received,
  @NetSyncProps.C113_sources,
  @CopySyncProps.C114_end,
  @CopySyncProps.C114_ex,
  @CopySyncProps.C114_feasible,
  @CopySyncProps.C114_item,
  @CopySyncProps.C114_readers_witness,
  @SharedRaceProps.C115_clear_refuted,
  @SharedRaceProps.C115_ex,
  @SharedRaceProps.C115_happens_before,
  @SharedRaceProps.C115_no_race,
  @SharedRaceProps.C115_shard,
  @MapLockProps.C116_ex,
  @MapLockProps.C116_holder,
  @MapLockProps.C116_holder_goes_on,
  @MapLockProps.C116_lock,
  @MapLockProps.C116_no_deadlock,
  @MapLockProps.C116_no_self_deadlock,
  @MapLockProps.C116_others).
Definition part37 := (
  @MapLockProps.C116_shared,
  @MapLockProps.C116_shared_ex,
  @MapLockProps.C116_shared_no_deadlock,
  @MapLockProps.C116_shared_one).
Definition all_theorems := (part0, part1, part2, part3, part4, part5, part6, part7, part8, part9, part10, part11, part12, part13, part14, part15, part16, part17, part18, part19, part20, part21, part22, part23, part24, part25, part26, part27, part28, part29, part30, part31, part32, part33, part34, part35, part36, part37).
Print Assumptions all_theorems.
