(** What every theorem of MANIFEST.json depends on: all of them must print "Closed under the global context". *)
From Verif Require ASConcProps.
From Verif Require AStoreProps.
From Verif Require AggReProps.
From Verif Require AggregatorProps.
From Verif Require AsyncDropProps.
From Verif Require AsyncGenProps.
From Verif Require BitMapProps.
From Verif Require CmdLineProps.
From Verif Require CoOwnProps.
From Verif Require CoTimerProps.
From Verif Require CodecProps.
From Verif Require CompKeyProps.
From Verif Require CompareProps.
From Verif Require CoroProps.
From Verif Require Crc64Props.
From Verif Require DecFloatProps.
From Verif Require DecSingleProps.
From Verif Require DecimalProps.
From Verif Require EnumProps.
From Verif Require FactoryProps.
From Verif Require FixedStringProps.
From Verif Require GenVarProps.
From Verif Require GeneratorProps.
From Verif Require GroupMoveProps.
From Verif Require GroupObsProps.
From Verif Require GroupThrowProps.
From Verif Require HandleExact.
From Verif Require HandleProps.
From Verif Require HashCrcProps.
From Verif Require HashFailProps.
From Verif Require HashStreamProps.
From Verif Require InPlaceProps.
From Verif Require Int2ArrayProps.
From Verif Require IntervalIterProps.
From Verif Require IntervalProps.
From Verif Require JCvProps.
From Verif Require JStopProps.
From Verif Require JThreadProps.
From Verif Require MemStreamProps.
From Verif Require MemberListProps.
From Verif Require MirMoveProps.
From Verif Require MultiProps.
From Verif Require NotifyNestProps.
From Verif Require NotifyThrowProps.
From Verif Require ObsSetProps.
From Verif Require ObsThrowProps.
From Verif Require ObserverProps.
From Verif Require PackProps.
From Verif Require PersistProps.
From Verif Require PlainReaderProps.
From Verif Require PlainSerialProps.
From Verif Require PoolFinProps.
From Verif Require PoolProps.
From Verif Require QIterProps.
From Verif Require QListProps.
From Verif Require RawStreamProps.
From Verif Require ReentProps.
From Verif Require RingIterProps.
From Verif Require RingProps.
From Verif Require RingThrowProps.
From Verif Require ScopeGuardProps.
From Verif Require SingletonProps.
From Verif Require SleepProps.
From Verif Require TaskVarProps.
From Verif Require TaskVarValue.
From Verif Require TestRunProps.
From Verif Require TextConvProps.
From Verif Require TimeTextProps.
From Verif Require TimerProps.
From Verif Require TypesProps.
From Verif Require UQResProps.
From Verif Require UQueueProps.
From Verif Require UniquePtrProps.
From Verif Require UnorderedProps.
From Verif Require UtilProps.
From Verif Require VSetCtorProps.
From Verif Require VSetNeighbours.
From Verif Require VSetProps.
From Verif Require VSetStable.
From Verif Require VSetThrowProps.
From Verif Require VtsAgainProps.
From Verif Require VtsAnyProps.
From Verif Require VtsLocal.
From Verif Require VtsNameProps.
From Verif Require VtsProps.
From Verif Require VtsTyped.
From Verif Require WatchDogProps.
From Verif Require WdSleepProps.
From Verif Require WireProps.

(* C01 *)
Print Assumptions VSetProps.vset_is_sorted_set.
Print Assumptions VSetProps.vset_refines_sorted_list.
(* C02 *)
Print Assumptions VSetProps.vset_order_statistics.
(* C03 *)
Print Assumptions VSetProps.vset_lookup_and_bounds.
Print Assumptions VSetProps.vset_bounds_of_prefix_key_refuted.
(* C04 *)
Print Assumptions VSetProps.vset_iteration_orders_agree.
Print Assumptions VSetNeighbours.vset_neighbours.
(* C05 *)
Print Assumptions VSetProps.vset_refines_sorted_list.
Print Assumptions VSetProps.vset_live_nodes_are_elements.
(* C06 *)
Print Assumptions VSetProps.vset_depth_after_insertions.
Print Assumptions VSetProps.vset_depth_after_erasures_refuted.
(* C07 *)
Print Assumptions VSetProps.vset_copy_independent.
Print Assumptions VSetProps.vset_self_assign_refuted.
(* C08 *)
Print Assumptions RingProps.ring_refines_bounded_deque_partial.
Print Assumptions RingProps.ring_no_leak.
Print Assumptions RingProps.ring_keeps_last_pushed.
Print Assumptions RingProps.ring_push_own_front_refuted.
Print Assumptions RingProps.ring_push_own_back_refuted.
(* C09 *)
Print Assumptions RingProps.ring_reserve_keeps_tail.
Print Assumptions RingProps.ring_refines_bounded_deque_partial.
(* C10 *)
Print Assumptions RingProps.ring_at_checked_partial.
Print Assumptions RingProps.ring_at_size_refuted.
(* C11 *)
Print Assumptions RingProps.ring_copy_independent.
Print Assumptions RingProps.ring_equality_is_content_equality.
Print Assumptions RingProps.ring_copy_of_null_refuted.
(* C12 *)
Print Assumptions DecimalProps.decimal_text_round_trip_partial.
Print Assumptions DecimalProps.decimal_text_exponent_refuted.
Print Assumptions DecimalProps.decimal_text_wrapped_denominator_refuted.
(* C13 *)
Print Assumptions DecimalProps.decimal_order_by_value.
Print Assumptions DecimalProps.decimal_order_total.
Print Assumptions DecimalProps.decimal_order_transitive.
Print Assumptions DecimalProps.decimal_negative_zero_refuted.
Print Assumptions DecimalProps.decimal_order_wrapped_denominator_refuted.
(* C14 *)
Print Assumptions DecimalProps.decimal_add_sub_exact_partial.
Print Assumptions DecimalProps.decimal_add_overflow_refuted.
(* C15 *)
Print Assumptions DecimalProps.decimal_extend_exact.
Print Assumptions DecimalProps.decimal_truncate_toward_zero.
Print Assumptions DecimalProps.decimal_normalize_minimal.
Print Assumptions DecimalProps.decimal_rescale_round_trip.
(* C16 *)
Print Assumptions DecimalProps.decimal_floor_ceil_bounds_partial.
Print Assumptions DecimalProps.decimal_floor_negative_refuted.
(* C17 *)
Print Assumptions DecimalProps.decimal_parse_exact_partial.
Print Assumptions DecimalProps.decimal_parse_counter_refuted.
Print Assumptions DecimalProps.decimal_parse_wrap_refuted.
Print Assumptions DecimalProps.decimal_parse_empty_refuted.
(* C18 *)
Print Assumptions DecimalProps.decimal_bits_round_trip.
(* C19 *)
Print Assumptions DecimalProps.decimal_multiply_exact_partial.
Print Assumptions DecimalProps.decimal_multiply_overflow_refuted.
Print Assumptions DecimalProps.decimal_multiply_undefined_refuted.
(* C20 *)
Print Assumptions QListProps.quick_list_refines_sequences.
Print Assumptions QListProps.quick_list_backward_is_reverse.
Print Assumptions QListProps.quick_list_excluded_is_nowhere.
Print Assumptions QListProps.quick_list_operations_are_local.
Print Assumptions QListProps.quick_list_clear_refuted.
Print Assumptions QListProps.quick_list_self_splice_refuted.
Print Assumptions QListProps.quick_link_self_move_refuted.
(* C21 *)
Print Assumptions ObserverProps.notify_calls_each_once.
Print Assumptions ObserverProps.notify_while_true_stops.
Print Assumptions ObserverProps.notify_self_unsubscribe.
Print Assumptions ObserverProps.clear_observers_unsubscribes.
Print Assumptions ObserverProps.notify_unsubscribe_next_refuted.
Print Assumptions ObserverProps.notify_resubscribe_refuted.
(* C22 *)
Print Assumptions ObsSetProps.observable_sets_refine_bags.
Print Assumptions ObsSetProps.mirror_shows_source.
Print Assumptions ObsSetProps.mirror_insert_refuted.
(* C23 *)
Print Assumptions ObsSetProps.observable_sets_refine_bags.
Print Assumptions ObsSetProps.foreign_set_groups_source.
Print Assumptions ObsSetProps.foreign_insert_refuted.
(* C24 *)
Print Assumptions UQueueProps.update_queue_refines_fifo.
Print Assumptions UQueueProps.update_queue_exactly_once_in_order.
Print Assumptions UQueueProps.update_queue_order_kept.
Print Assumptions UQueueProps.update_queue_frees_every_block.
Print Assumptions UQueueProps.update_queue_no_data_race.
Print Assumptions UQueueProps.update_queue_nested_apply_refuted.
(* C25 *)
Print Assumptions AStoreProps.atomic_storage_history.
Print Assumptions AStoreProps.atomic_storage_save_crash.
Print Assumptions AStoreProps.atomic_storage_save_load.
Print Assumptions AStoreProps.atomic_storage_new.
Print Assumptions AStoreProps.process_crash_format.
(* C26 *)
Print Assumptions AStoreProps.atomic_storage_recovery_idempotent.
Print Assumptions AStoreProps.atomic_storage_history.
(* C27 *)
Print Assumptions AStoreProps.atomic_storage_failed_save_refuted.
Print Assumptions AStoreProps.atomic_storage_mixture_refuted.
Print Assumptions AStoreProps.atomic_storage_failed_save_load_partial.
Print Assumptions AStoreProps.atomic_storage_history.
(* C28 *)
Print Assumptions HashStreamProps.hash_stream_round_trip.
Print Assumptions HashStreamProps.hash_stream_layout.
(* C29 *)
Print Assumptions HashStreamProps.hash_stream_detects.
Print Assumptions HashStreamProps.hash_stream_any_file.
Print Assumptions HashStreamProps.hash_stream_cut_at_block.
Print Assumptions HashCrcProps.crc_stream_detects_burst.
Print Assumptions HashCrcProps.crc_stream_detects_value.
(* C30 *)
Print Assumptions Crc64Props.crc64_detects_burst.
Print Assumptions Crc64Props.crc64_detects_8_bytes.
Print Assumptions Crc64Props.crc64_is_jones.
Print Assumptions Crc64Props.crc64_seed_injective.
Print Assumptions Crc64Props.crc64_ints_bytes.
Print Assumptions Crc64Props.int64_hash_is_crc.
Print Assumptions Crc64Props.crc64_9_bytes_refuted.
(* C31 *)
Print Assumptions CodecProps.codec_round_trip.
Print Assumptions CodecProps.codec_round_trip_default.
Print Assumptions CodecProps.codec_write_total.
Print Assumptions CodecProps.codec_prefix_free.
Print Assumptions CodecProps.codec_initializer_refuted.
(* C32 *)
Print Assumptions CodecProps.codec_truncated.
Print Assumptions CodecProps.codec_local.
Print Assumptions CodecProps.codec_storage_format.
Print Assumptions CodecProps.codec_storage_history.
Print Assumptions VtsLocal.vts_truncated.
Print Assumptions VtsLocal.vts_local.
Print Assumptions VtsLocal.vts_prefix.
(* C33 *)
Print Assumptions CodecProps.codec_replaces_partial.
Print Assumptions CodecProps.codec_optional_keeps_refuted.
Print Assumptions CodecProps.codec_deque_appends_refuted.
Print Assumptions CodecProps.codec_set_merges_refuted.
(* C34 *)
Print Assumptions CodecProps.codec_no_ub_partial.
Print Assumptions CodecProps.codec_any_bytes.
Print Assumptions CodecProps.codec_variant_refuted.
Print Assumptions VtsProps.vts_index_refuted.
(* C35 *)
Print Assumptions VtsProps.vts_tolerant_partial.
Print Assumptions VtsProps.vts_fields_partial.
Print Assumptions VtsProps.vts_round_trip.
Print Assumptions VtsProps.vts_write_total.
Print Assumptions VtsTyped.mig_has_ty.
Print Assumptions VtsProps.vts_removed_type_refuted.
Print Assumptions VtsProps.vts_empty_struct_refuted.
Print Assumptions VtsProps.vts_skip_conflict_refuted.
(* C36 *)
Print Assumptions VtsProps.vts_mismatch_partial.
Print Assumptions VtsAnyProps.vts_mismatch_nested_partial.
Print Assumptions VtsProps.vts_sign_refuted.
Print Assumptions VtsProps.vts_bool_refuted.
Print Assumptions VtsProps.vts_bools_lost_refuted.
Print Assumptions VtsNameProps.vts_name_is_shape.
(* C37 *)
Print Assumptions CompareProps.composite_lexicographic.
Print Assumptions CompareProps.composite_strict_weak.
Print Assumptions CompareProps.reverse_strict_weak.
Print Assumptions CompareProps.key_compare_coherent.
Print Assumptions CompareProps.transparent_reverse_coherent.
Print Assumptions CompareProps.transparent_composite_coherent.
Print Assumptions CompareProps.coherent_strict_weak.
Print Assumptions CompareProps.coherent_keys_ok.
Print Assumptions CompareProps.coherent_lookup.
Print Assumptions CompareProps.coherent_vset.
(* C38 *)
Print Assumptions Int2ArrayProps.int_array_round_trip.
Print Assumptions Int2ArrayProps.array_int_round_trip.
Print Assumptions Int2ArrayProps.to_array_big_endian.
(* C39 *)
Print Assumptions BitMapProps.bitmap_is_set_partial.
Print Assumptions BitMapProps.bitmap_initializer_refuted.
(* C40 *)
Print Assumptions IntervalProps.interval_latest_partial.
Print Assumptions IntervalProps.interval_function_partial.
Print Assumptions IntervalProps.interval_distinct_partial.
Print Assumptions IntervalProps.interval_assign_exact.
Print Assumptions IntervalProps.interval_gap_refuted.
Print Assumptions IntervalProps.interval_max_refuted.
(* C41 *)
Print Assumptions TimerProps.timer_never_early_partial.
Print Assumptions TimerProps.timer_all_resumed_partial.
Print Assumptions TimerProps.timer_loop_bounded.
Print Assumptions TimerProps.timer_latest_first.
Print Assumptions TimerProps.timer_order_with_greater.
Print Assumptions TimerProps.timer_order_refuted.
Print Assumptions TimerProps.timer_delayed_by_longest.
(* C42 *)
Print Assumptions SleepProps.sleep_reason_partial.
Print Assumptions SleepProps.sleep_no_dangling.
Print Assumptions SleepProps.sleep_ends_at_deadline_partial.
Print Assumptions SleepProps.sleep_prompt_partial.
Print Assumptions SleepProps.sleep_lost_wakeup_refuted.
(* C43 *)
Print Assumptions AggregatorProps.aggregator_calls_exact.
Print Assumptions AggregatorProps.aggregator_latest_partial.
Print Assumptions AggregatorProps.aggregator_cancelled.
Print Assumptions AggregatorProps.aggregator_again_refuted.
Print Assumptions AggregatorProps.aggregator_moved_refuted.
(* C44 *)
Print Assumptions PoolProps.pool_correct.
Print Assumptions PoolProps.pool_destroys_at_most_once.
Print Assumptions PoolProps.pool_destroys_exactly_once.
(* C45 *)
Print Assumptions ScopeGuardProps.guard_ownership_partial.
Print Assumptions ScopeGuardProps.guard_exactly_once_partial.
Print Assumptions ScopeGuardProps.guard_released_refuted.
Print Assumptions ScopeGuardProps.guard_twice_refuted.
Print Assumptions ScopeGuardProps.guard_assign_refuted.
Print Assumptions ScopeGuardProps.guard_assign_lost_refuted.
(* C46 *)
Print Assumptions MemberListProps.reflect_names.
Print Assumptions MemberListProps.reflect_cuts.
Print Assumptions MemberListProps.reflect_find.
Print Assumptions MemberListProps.reflect_spacing_refuted.
(* C47 *)
Print Assumptions DecimalProps.decimal_nanoseconds_exact_partial.
Print Assumptions DecimalProps.decimal_nanoseconds_refuted.
(* C48 *)
Print Assumptions DecimalProps.u128_width_partial.
Print Assumptions DecimalProps.u128_width_refuted.
(* C49 *)
Print Assumptions HashStreamProps.hash_stream_reuse_refuted.
(* C50 *)
Print Assumptions CompareProps.insensitive_less_spec.
Print Assumptions CompareProps.insensitive_equal_spec.
Print Assumptions CompareProps.insensitive_trichotomy.
Print Assumptions CompareProps.insensitive_strict_weak.
Print Assumptions CompareProps.insensitive_negative_refuted.
(* C51 *)
Print Assumptions CoroProps.task_safe.
Print Assumptions CoroProps.task_result.
Print Assumptions CoroProps.task_no_lost_wakeup.
Print Assumptions CoroProps.task_terminates.
Print Assumptions CoroProps.task_completes.
Print Assumptions CoroProps.task_await_again_refuted.
Print Assumptions CoroProps.task_dropped_refuted.
(* C52 *)
Print Assumptions CoroProps.frame_destroyed_once.
Print Assumptions CoroProps.frame_no_leak.
Print Assumptions CoroProps.frame_released_running.
Print Assumptions CoroProps.frame_released_leak_refuted.
(* C53 *)
Print Assumptions GeneratorProps.generator_for.
Print Assumptions GeneratorProps.generator_lazy.
Print Assumptions GeneratorProps.generator_fmap.
Print Assumptions GeneratorProps.generator_fmap_lazy.
Print Assumptions GeneratorProps.generator_empty.
Print Assumptions GeneratorProps.generator_second_loop_refuted.
Print Assumptions GeneratorProps.generator_finished_loop_refuted.
(* C54 *)
Print Assumptions AsyncGenProps.async_generator_reads.
Print Assumptions AsyncGenProps.async_generator_safe.
Print Assumptions AsyncGenProps.async_generator_loop.
Print Assumptions AsyncGenProps.async_generator_begin_again_refuted.
Print Assumptions AsyncGenProps.async_generator_begin_finished_refuted.
(* C55 *)
Print Assumptions WatchDogProps.watch_dog_stop_cause.
Print Assumptions WatchDogProps.watch_dog_cancel.
Print Assumptions WatchDogProps.watch_dog_timeout.
Print Assumptions WatchDogProps.watch_dog_log_once.
Print Assumptions WatchDogProps.watch_dog_destroyed.
Print Assumptions WatchDogProps.watch_dog_destructor_stops_refuted.
Print Assumptions WatchDogProps.watch_dog_log_lifetime_refuted.
Print Assumptions WatchDogProps.watch_dog_log_lifetime_partial.
(* C56 *)
Print Assumptions PersistProps.persistent_file_round_trip.
Print Assumptions PersistProps.persistent_file_truncated.
Print Assumptions PersistProps.persistent_file_damaged.
Print Assumptions PersistProps.persistent_other_header.
Print Assumptions PersistProps.persistent_snapshot.
Print Assumptions PersistProps.persistent_history.
Print Assumptions PersistProps.persistent_object.
Print Assumptions PersistProps.persistent_upgrade.
Print Assumptions PersistProps.persistent_upgraded_history.
Print Assumptions PersistProps.persistent_object_refuted.
Print Assumptions PersistProps.optional_object_refuted.
(* C57 *)
Print Assumptions InPlaceProps.in_place_read_keeps_partial.
Print Assumptions InPlaceProps.in_place_read_replaced_partial.
Print Assumptions InPlaceProps.in_place_read_refuted.
(* C58 *)
Print Assumptions InPlaceProps.persistent_unmoved_partial.
Print Assumptions InPlaceProps.persistent_moved_refuted.
Print Assumptions InPlaceProps.persistent_dangling_refuted.
(* C59 *)
Print Assumptions CmdLineProps.command_line_complete.
Print Assumptions CmdLineProps.command_line_sound.
Print Assumptions CmdLineProps.command_line_refuses.
Print Assumptions CmdLineProps.command_line_unused.
Print Assumptions CmdLineProps.command_line_short_refuted.
Print Assumptions CmdLineProps.command_line_value_refuted.
(* C60 *)
Print Assumptions CmdLineProps.formatter_round_trip_partial.
Print Assumptions CmdLineProps.attribute_passed_partial.
Print Assumptions CmdLineProps.attribute_default.
Print Assumptions CmdLineProps.attribute_number.
Print Assumptions CmdLineProps.attribute_unsigned_refuted.
Print Assumptions CmdLineProps.attribute_flag_refuted.
Print Assumptions CmdLineProps.formatter_strings_refuted.
Print Assumptions CmdLineProps.attribute_malformed_refuted.
(* C61 *)
Print Assumptions TestRunProps.test_run_filtered.
Print Assumptions TestRunProps.test_run_named.
Print Assumptions TestRunProps.test_run_unknown.
Print Assumptions TestRunProps.test_list.
Print Assumptions TestRunProps.test_duplicates.
Print Assumptions TestRunProps.test_exit_code_refuted.
Print Assumptions TestRunProps.test_crash_refuted.
Print Assumptions TestRunProps.test_run_again_refuted.
Print Assumptions TestRunProps.test_run_command.
(* C62 *)
Print Assumptions FactoryProps.factory_create.
Print Assumptions FactoryProps.factory_exact_partial.
Print Assumptions FactoryProps.factory_lvalue_never.
Print Assumptions FactoryProps.factory_lvalue_refuted.
Print Assumptions FactoryProps.factory_duplicate_refuted.
(* C63 *)
Print Assumptions FactoryProps.throws_partial.
Print Assumptions FactoryProps.throws_refuted.
(* C64 *)
Print Assumptions RawStreamProps.vector_stream.
Print Assumptions RawStreamProps.std_stream.
Print Assumptions RawStreamProps.posix_stream_partial.
Print Assumptions RawStreamProps.streams_pieces.
Print Assumptions RawStreamProps.read_raw_vector.
Print Assumptions RawStreamProps.read_raw_std.
Print Assumptions RawStreamProps.read_raw_posix_partial.
Print Assumptions RawStreamProps.read_raw_posix_refuted.
Print Assumptions RawStreamProps.std_not_open_refuted.
Print Assumptions RawStreamProps.measure_length.
Print Assumptions RawStreamProps.posix_file_partial.
Print Assumptions RawStreamProps.posix_round_trip_partial.
Print Assumptions RawStreamProps.posix_end_refuted.
Print Assumptions RawStreamProps.win_file_partial.
Print Assumptions RawStreamProps.win_seek_refuted.
Print Assumptions RawStreamProps.win_write_refuted.
(* C65 *)
Print Assumptions HandleProps.handles_owned_partial.
Print Assumptions HandleProps.handles_closed_partial.
Print Assumptions HandleProps.unique_handles.
Print Assumptions HandleProps.shared_copy_null_refuted.
Print Assumptions HandleProps.shared_self_assign_refuted.
Print Assumptions HandleProps.unique_ptr_partial.
Print Assumptions HandleProps.unique_ptr_reentrant_refuted.
Print Assumptions HandleExact.handles_exact.
Print Assumptions HandleExact.handles_exact_closed.
Print Assumptions HandleExact.handles_expected.
Print Assumptions HandleExact.handles_swap.
Print Assumptions HandleExact.handles_equal.
Print Assumptions UniquePtrProps.unique_ptr_exact.
Print Assumptions UniquePtrProps.unique_ptr_equal.
(* C66 *)
Print Assumptions WireProps.wire_format.
Print Assumptions WireProps.wire_read.
Print Assumptions WireProps.wire_injective.
Print Assumptions WireProps.wire_versioned.
Print Assumptions WireProps.wire_persistent.
(* C67 *)
Print Assumptions EnumProps.enum_index.
Print Assumptions EnumProps.enum_string.
Print Assumptions EnumProps.enum_parse.
Print Assumptions EnumProps.enum_parse_i.
Print Assumptions EnumProps.enum_round_trip_i_partial.
Print Assumptions EnumProps.enum_case_refuted.
Print Assumptions EnumProps.enum_initializer_refuted.
(* C68 *)
Print Assumptions TypesProps.types_complete.
Print Assumptions TypesProps.types_minimal.
Print Assumptions TypesProps.types_program.
Print Assumptions TypesProps.types_extra_refuted.
Print Assumptions TypesProps.types_tuple_refuted.
(* C69 *)
Print Assumptions TypesProps.type_index.
(* C70 *)
Print Assumptions DecFloatProps.decimal_to_double_partial.
Print Assumptions DecFloatProps.decimal_to_double_order_partial.
Print Assumptions DecFloatProps.decimal_from_double_partial.
Print Assumptions DecFloatProps.decimal_from_exact_double_partial.
Print Assumptions DecFloatProps.decimal_from_large_double_partial.
Print Assumptions DecFloatProps.decimal_double_round_trip_partial.
Print Assumptions DecFloatProps.decimal_double_truncated_partial.
Print Assumptions DecFloatProps.decimal_double_round_trip_refuted.
Print Assumptions DecFloatProps.decimal_to_double_refuted.
Print Assumptions DecFloatProps.decimal_double_distinct_refuted.
Print Assumptions DecFloatProps.decimal_truncated_refuted.
Print Assumptions DecFloatProps.decimal_floored_refuted.
Print Assumptions DecFloatProps.decimal_assign_magnitude_refuted.
Print Assumptions DecFloatProps.decimal_from_large_refuted.
(* C71 *)
Print Assumptions DecFloatProps.decimal_add_double_partial.
Print Assumptions DecFloatProps.decimal_times_double_partial.
Print Assumptions DecFloatProps.decimal_divide_double_partial.
Print Assumptions DecFloatProps.decimal_divide_zero.
Print Assumptions DecFloatProps.decimal_assign_integer_partial.
Print Assumptions DecFloatProps.decimal_cast_integer_partial.
Print Assumptions DecFloatProps.decimal_truncated_refuted.
Print Assumptions DecFloatProps.decimal_cast_integer_refuted.
Print Assumptions DecFloatProps.decimal_assign_integer_refuted.
(* C72 *)
Print Assumptions MultiProps.multiprecision_data_partial.
Print Assumptions MultiProps.multiprecision_exp_refuted.
Print Assumptions MultiProps.multiprecision_man_len_partial.
Print Assumptions MultiProps.multiprecision_man_len_refuted.
(* C73 *)
Print Assumptions MultiProps.multiprecision_write_limit.
Print Assumptions MultiProps.multiprecision_bytes.
Print Assumptions MultiProps.multiprecision_round_trip_partial.
Print Assumptions MultiProps.multiprecision_total.
Print Assumptions MultiProps.multiprecision_truncated.
Print Assumptions MultiProps.multiprecision_prefix.
Print Assumptions MultiProps.multiprecision_wide_refuted.
Print Assumptions MultiProps.multiprecision_malformed_refuted.
(* C74 *)
Print Assumptions SingletonProps.singleton_life.
Print Assumptions SingletonProps.singleton_single.
Print Assumptions SingletonProps.shared_singleton_once.
Print Assumptions SingletonProps.shared_singleton_gone.
Print Assumptions SingletonProps.ondemand_singleton_lives.
Print Assumptions SingletonProps.singleton_throws.
Print Assumptions SingletonProps.singleton_threads_refuted.
Print Assumptions SingletonProps.shared_singleton_null_refuted.
(* C75 *)
Print Assumptions UtilProps.stop_watch_exact.
Print Assumptions UtilProps.stop_watch_partial.
Print Assumptions UtilProps.stop_watch_stays.
Print Assumptions UtilProps.stop_watch_cast.
Print Assumptions UtilProps.stop_watch_early_refuted.
Print Assumptions UtilProps.stop_watch_overflow_refuted.
(* C76 *)
Print Assumptions UtilProps.position_changed_partial.
Print Assumptions UtilProps.position_changed_end.
Print Assumptions UtilProps.position_changed_multi_refuted.
(* C77 *)
Print Assumptions UtilProps.math_round_partial.
Print Assumptions UtilProps.math_clamp_range.
Print Assumptions UtilProps.math_clamp_exchanged.
Print Assumptions UtilProps.math_sign_abs.
Print Assumptions UtilProps.math_round_half_refuted.
Print Assumptions UtilProps.math_round_negative_refuted.
Print Assumptions UtilProps.math_round_large_refuted.
Print Assumptions UtilProps.math_round_range_refuted.
(* C78 *)
Print Assumptions UtilProps.memberwise_equal.
Print Assumptions UtilProps.memberwise_less.
Print Assumptions UtilProps.memberwise_total_partial.
Print Assumptions UtilProps.memberwise_transitive_partial.
Print Assumptions UtilProps.memberwise_nan_refuted.
(* C79 *)
Print Assumptions UtilProps.hash_equal.
Print Assumptions UtilProps.hash_last.
Print Assumptions UtilProps.hash_vector.
Print Assumptions UtilProps.hash_vector_equal.
Print Assumptions UtilProps.hash_collision.
(* C80 *)
Print Assumptions RingThrowProps.ring_reserve_throws_partial.
Print Assumptions RingThrowProps.ring_push_back_throws_refuted.
Print Assumptions RingThrowProps.ring_push_front_throws_refuted.
Print Assumptions RingThrowProps.ring_copy_throws_refuted.
Print Assumptions RingThrowProps.ring_assign_throws_refuted.
(* C81 *)
Print Assumptions HashFailProps.hash_out_enough.
Print Assumptions HashFailProps.hash_out_full_refuted.
Print Assumptions HashFailProps.hash_out_retry_refuted.
Print Assumptions HashFailProps.buffered_write_exact.
Print Assumptions HashFailProps.buffered_read_exact.
(* C82 *)
Print Assumptions PlainReaderProps.plain_reader_any_index.
Print Assumptions PlainReaderProps.plain_reader_round_trip.
Print Assumptions PlainReaderProps.plain_reader_no_ub_partial.
Print Assumptions PlainReaderProps.plain_reader_prototypes_refuted.
(* C83 *)
Print Assumptions RingIterProps.ring_iterators.
Print Assumptions RingIterProps.ring_iterator_shift_refuted.
Print Assumptions RingIterProps.ring_moved_from_refuted.
Print Assumptions RingIterProps.ring_iterator_equal_refuted.
(* C84 *)
Print Assumptions VSetThrowProps.vset_exceptions.
Print Assumptions VSetThrowProps.vset_insert_leak_refuted.
Print Assumptions VSetThrowProps.vset_copy_leak_refuted.
Print Assumptions VSetThrowProps.vset_assign_throws_refuted.
(* C85 *)
Print Assumptions TextConvProps.encode_string_spec.
Print Assumptions TextConvProps.decode_string_spec.
Print Assumptions TextConvProps.decode_string_length.
Print Assumptions TextConvProps.encode_string_injective.
Print Assumptions TextConvProps.log_string_zero_refuted.
Print Assumptions TextConvProps.log_wide_throws.
Print Assumptions TextConvProps.log_wide_refuted.
(* C86 *)
Print Assumptions FixedStringProps.fixed_string_programs.
Print Assumptions FixedStringProps.fixed_string_terminator_refuted.
Print Assumptions FixedStringProps.from_ascii_ascii.
Print Assumptions FixedStringProps.from_ascii_refuted.
Print Assumptions FixedStringProps.separator_joins.
Print Assumptions FixedStringProps.separator_char_joins.
Print Assumptions FixedStringProps.fixed_hash_agrees.
Print Assumptions FixedStringProps.fixed_hash_array_refuted.
Print Assumptions FixedStringProps.int_range_spec.
Print Assumptions FixedStringProps.make_count_negative_refuted.
(* C87 *)
Print Assumptions TimeTextProps.every_date.
Print Assumptions TimeTextProps.make_time_zero_based.
Print Assumptions TimeTextProps.make_time_late.
Print Assumptions TimeTextProps.make_time_calendar_refuted.
Print Assumptions TimeTextProps.make_time_failure_refuted.
Print Assumptions TimeTextProps.make_time_range_refuted.
Print Assumptions TimeTextProps.make_time_fraction.
Print Assumptions TimeTextProps.format_duration_spec.
Print Assumptions TimeTextProps.duration_text_unique.
Print Assumptions TimeTextProps.format_duration_injective.
Print Assumptions TimeTextProps.format_duration_min_refuted.
Print Assumptions TimeTextProps.format_duration_clang_spec.
(* C88 *)
Print Assumptions UnorderedProps.unordered_set_round_trip.
Print Assumptions UnorderedProps.unordered_set_truncated.
Print Assumptions UnorderedProps.unordered_set_any_bytes.
Print Assumptions UnorderedProps.unordered_set_keeps_refuted.
Print Assumptions UnorderedProps.unordered_map_round_trip.
Print Assumptions UnorderedProps.unordered_map_truncated.
Print Assumptions UnorderedProps.unordered_map_any_bytes.
Print Assumptions UnorderedProps.insert_std_ok.
Print Assumptions UnorderedProps.unordered_file_refuted.
(* C89 *)
Print Assumptions VtsAnyProps.vts_any_version_partial.
Print Assumptions VtsAnyProps.vts_no_delete_partial.
Print Assumptions VtsAnyProps.faithful_unpacked.
Print Assumptions VtsAnyProps.vts_packed_bools_refuted.
Print Assumptions VtsProps.vts_empty_struct_refuted.
(* C90 *)
Print Assumptions IntervalIterProps.interval_iteration_partial.
Print Assumptions IntervalIterProps.interval_iteration_latest_partial.
Print Assumptions IntervalIterProps.interval_iteration_refuted.
Print Assumptions IntervalIterProps.interval_reverse_refuted.
(* C91 *)
Print Assumptions AggReProps.aggregator_reentrant.
Print Assumptions AggReProps.aggregator_quiet_partial.
Print Assumptions AggReProps.aggregator_recursion.
Print Assumptions AggReProps.aggregator_reentrant_refuted.
Print Assumptions AggReProps.aggregator_throw_refuted.
(* C92 *)
Print Assumptions DecSingleProps.decimal_to_float_partial.
Print Assumptions DecSingleProps.decimal_to_float_order_partial.
Print Assumptions DecSingleProps.decimal_to_float_error_partial.
Print Assumptions DecSingleProps.decimal_float_round_trip_partial.
Print Assumptions DecSingleProps.decimal_float_round_trip_refuted.
Print Assumptions DecSingleProps.decimal_to_float_refuted.
Print Assumptions DecSingleProps.decimal_float_distinct_refuted.
(* C93 *)
Print Assumptions NotifyNestProps.notify_nested.
Print Assumptions NotifyNestProps.notify_cascade.
Print Assumptions NotifyNestProps.notify_nested_unsubscribe_refuted.
Print Assumptions NotifyNestProps.notify_recursion.
(* C94 *)
Print Assumptions TaskVarProps.task_owned_once.
Print Assumptions TaskVarProps.task_no_leak.
Print Assumptions TaskVarProps.task_careful_safe.
Print Assumptions TaskVarProps.task_wait_chain.
Print Assumptions TaskVarProps.task_all_finish.
Print Assumptions TaskVarProps.task_is_ready.
Print Assumptions TaskVarProps.task_is_done.
Print Assumptions TaskVarProps.task_eager_start.
Print Assumptions TaskVarProps.task_get_once.
Print Assumptions TaskVarProps.task_release_no_leak.
Print Assumptions TaskVarProps.task_release_finished_refuted.
Print Assumptions TaskVarProps.task_get_unready_refuted.
Print Assumptions TaskVarProps.task_free_suspended_refuted.
Print Assumptions TaskVarProps.task_overwrite_suspended_refuted.
Print Assumptions TaskVarProps.task_self_move_refuted.
Print Assumptions TaskVarProps.task_awaiter_destroyed_refuted.
Print Assumptions TaskVarProps.task_await_cycle_refuted.
Print Assumptions TaskVarValue.task_get_result.
Print Assumptions TaskVarValue.task_await_result.
(* C95 *)
Print Assumptions VtsAgainProps.vts_session.
Print Assumptions VtsAgainProps.vts_reader_any_state.
Print Assumptions VtsAgainProps.vts_rejected_state.
Print Assumptions VtsAgainProps.vts_one_target.
Print Assumptions VtsAgainProps.vts_initialize.
Print Assumptions VtsAgainProps.vts_retry_refuted.
(* C96 *)
Print Assumptions JStopProps.jstop_safe_partial.
Print Assumptions JStopProps.jstop_source_safe.
Print Assumptions JStopProps.jstop_allowed.
Print Assumptions JStopProps.jstop_early_delete.
Print Assumptions JStopProps.jstop_unlocks.
Print Assumptions JStopProps.jstop_wait.
Print Assumptions JStopProps.jstop_token_refuted.
Print Assumptions JStopProps.jstop_callback_refuted.
(* C97 *)
Print Assumptions JCvProps.jcv_safe.
Print Assumptions JCvProps.jcv_locked.
Print Assumptions JCvProps.jcv_return.
Print Assumptions JCvProps.jcv_stop.
Print Assumptions JCvProps.jcv_stop_bounded.
Print Assumptions JCvProps.jcv_notify.
Print Assumptions JCvProps.jcv_notify_bounded.
Print Assumptions JCvProps.jcv_mutex.
Print Assumptions JCvProps.jcv_destructor.
Print Assumptions JCvProps.jcv_deadlock.
(* C98 *)
Print Assumptions JThreadProps.jthread_history.
Print Assumptions JThreadProps.jthread_allowed.
Print Assumptions JThreadProps.jthread_owner.
Print Assumptions JThreadProps.jthread_asked.
Print Assumptions JThreadProps.jthread_returns.
Print Assumptions JThreadProps.jthread_terminate.
Print Assumptions JThreadProps.jthread_keeps_source.
Print Assumptions JThreadProps.jthread_self_refuted.
Print Assumptions JThreadProps.jthread_cycle_refuted.
(* C99 *)
Print Assumptions VSetStable.vset_iterators_stable.
(* C100 *)
Print Assumptions ASConcProps.save_mutex_consistent.
Print Assumptions ASConcProps.save_mutex_no_race.
Print Assumptions ASConcProps.save_mutex_progress.
Print Assumptions ASConcProps.save_mutex_crash.
Print Assumptions ASConcProps.save_mutex_load.
Print Assumptions ASConcProps.save_mutex_concurrent_refuted.
(* C101 *)
Print Assumptions PoolFinProps.pool_finalize_correct.
Print Assumptions PoolFinProps.pool_finalize_this_safe.
Print Assumptions PoolFinProps.pool_finalize_handout_partial.
Print Assumptions PoolFinProps.pool_finalize_make_refuted.
Print Assumptions PoolFinProps.pool_finalize_clear_refuted.
Print Assumptions PoolFinProps.pool_finalize_recursion_refuted.
(* C102 *)
Print Assumptions UQResProps.uq_push_throw_strong.
Print Assumptions UQResProps.uq_push_throw_safe.
Print Assumptions UQResProps.uq_no_leak_partial.
Print Assumptions UQResProps.uq_release_partial.
Print Assumptions UQResProps.uq_push_leak_refuted.
Print Assumptions UQResProps.uq_push_recycled_leak_refuted.
Print Assumptions UQResProps.uq_release_refuted.
(* C103 *)
Print Assumptions WdSleepProps.wd_sleep_refines.
Print Assumptions WdSleepProps.wd_sleep_safe.
Print Assumptions WdSleepProps.wd_sleep_no_dangling.
Print Assumptions WdSleepProps.wd_sleep_destroyed.
Print Assumptions WdSleepProps.wd_sleep_prompt_partial.
Print Assumptions WdSleepProps.wd_sleep_destructor_waits_refuted.
(* C104 *)
Print Assumptions CompKeyProps.comp_key_orders.
Print Assumptions CompKeyProps.comp_key_coherent.
Print Assumptions CompKeyProps.comp_key_vset.
Print Assumptions CompKeyProps.comp_key_ub.
Print Assumptions CompKeyProps.make_key_partial.
Print Assumptions CompKeyProps.make_key_types.
Print Assumptions CompKeyProps.make_key_refuted.
(* C105 *)
Print Assumptions GenVarProps.gen_var_refines.
Print Assumptions GenVarProps.gen_var_owner.
Print Assumptions GenVarProps.gen_var_handles.
Print Assumptions GenVarProps.gen_var_self.
(* C106 *)
Print Assumptions AsyncDropProps.async_drop_conservative.
Print Assumptions AsyncDropProps.async_drop_safe.
Print Assumptions AsyncDropProps.async_drop_used.
Print Assumptions AsyncDropProps.async_drop_both.
Print Assumptions AsyncDropProps.async_drop_consumer.
Print Assumptions AsyncDropProps.async_drop_waiting.
Print Assumptions AsyncDropProps.async_drop_waiting_refuted.
(* C107 *)
Print Assumptions PackProps.packed_write.
Print Assumptions PackProps.packed_bits.
Print Assumptions PackProps.packed_read.
Print Assumptions PackProps.packed_round_trip.
(* C108 *)
Print Assumptions ObsThrowProps.throw_nothing_dangles.
Print Assumptions ObsThrowProps.throw_returned_synced.
Print Assumptions ObsThrowProps.throw_clear_resyncs.
Print Assumptions ObsThrowProps.throw_insert.
Print Assumptions ObsThrowProps.throw_removal.
Print Assumptions ObsThrowProps.throw_users_told.
Print Assumptions ObsThrowProps.throw_terminates.
Print Assumptions ObsThrowProps.throw_missed_stays.
Print Assumptions ObsThrowProps.throw_defined.
Print Assumptions ObsThrowProps.throw_conservative.
Print Assumptions ObsThrowProps.throw_foreign_refuted.
(* C109 *)
Print Assumptions GroupObsProps.group_observer_knows.
Print Assumptions GroupObsProps.group_watcher_knows.
Print Assumptions GroupObsProps.group_contents.
Print Assumptions GroupObsProps.group_progress.
Print Assumptions GroupObsProps.group_observer_stays.
Print Assumptions GroupObsProps.group_subscribe.
(* C110 *)
Print Assumptions ReentProps.reent_safe.
Print Assumptions ReentProps.reent_in_step.
Print Assumptions ReentProps.reent_meanwhile.
Print Assumptions ReentProps.reent_ends.
Print Assumptions ReentProps.reent_total.
Print Assumptions ReentProps.reent_erase_refuted.
Print Assumptions ReentProps.reent_dangling_refuted.
Print Assumptions ReentProps.reent_twice_refuted.
Print Assumptions ReentProps.reent_clear_refuted.
Print Assumptions ReentProps.reent_later_refuted.
(* C111 *)
Print Assumptions MemStreamProps.mem_streams_are_tapes.
Print Assumptions MemStreamProps.mem_round_trip.
Print Assumptions MemStreamProps.mem_length.
Print Assumptions MemStreamProps.mem_copy_refuted.
Print Assumptions MemStreamProps.mem_moved_from_refuted.
Print Assumptions MemStreamProps.mem_switch_misaligned_refuted.
Print Assumptions MemStreamProps.mem_put_misaligned_refuted.
Print Assumptions MemStreamProps.mem_overflow_refuted.
Print Assumptions MemStreamProps.space_destroy_refuted.
Print Assumptions MemStreamProps.space_allocations.
Print Assumptions MemStreamProps.space_progress.
Print Assumptions MemStreamProps.space_misaligned_refuted.
(* C112 *)
Print Assumptions QIterProps.list_iterators_are_places.
Print Assumptions QIterProps.list_sort_loop.
Print Assumptions QIterProps.list_iterator_next.
Print Assumptions QIterProps.list_iterator_erased_refuted.
Print Assumptions QIterProps.list_iterator_cleared_refuted.
Print Assumptions QIterProps.list_insert_end_refuted.
(* C113 *)
Print Assumptions CoTimerProps.cotimer_not_early.
Print Assumptions CoTimerProps.cotimer_all_end.
Print Assumptions CoTimerProps.cotimer_bounded.
Print Assumptions CoTimerProps.cotimer_progress.
Print Assumptions CoTimerProps.cotimer_safe.
Print Assumptions CoTimerProps.cotimer_forever_refuted.
Print Assumptions CoTimerProps.cotimer_starved_refuted.
(* C114 *)
Print Assumptions MirMoveProps.mirmove_safe.
Print Assumptions MirMoveProps.mirmove_in_step.
Print Assumptions MirMoveProps.mirmove_one_list.
Print Assumptions MirMoveProps.mirmove_told.
Print Assumptions MirMoveProps.mirmove_same.
Print Assumptions MirMoveProps.mirmove_move.
Print Assumptions MirMoveProps.mirmove_assign.
Print Assumptions MirMoveProps.mirmove_destroy.
Print Assumptions MirMoveProps.mirmove_ring.
Print Assumptions MirMoveProps.mirmove_assign_refuted.
Print Assumptions MirMoveProps.mirmove_self_refuted.
Print Assumptions MirMoveProps.mirmove_again_refuted.
Print Assumptions MirMoveProps.mirmove_more_refuted.
Print Assumptions MirMoveProps.mirmove_twice_refuted.
(* C115 *)
Print Assumptions VSetCtorProps.vset_ctor_ok.
Print Assumptions VSetCtorProps.vset_ctor_order.
Print Assumptions VSetCtorProps.vset_range_throws.
Print Assumptions VSetCtorProps.vset_init_throws.
Print Assumptions VSetCtorProps.vset_ctor_leak_refuted.
(* C116 *)
Print Assumptions CoOwnProps.own_timer.
Print Assumptions CoOwnProps.own_once.
Print Assumptions CoOwnProps.own_safe.
Print Assumptions CoOwnProps.own_no_leak.
Print Assumptions CoOwnProps.own_dangling.
Print Assumptions CoOwnProps.own_destroyed_refuted.
Print Assumptions CoOwnProps.own_late_refuted.
(* C117 *)
Print Assumptions GroupThrowProps.gthrow_effect.
Print Assumptions GroupThrowProps.gthrow_contents.
Print Assumptions GroupThrowProps.gthrow_no_ghost.
Print Assumptions GroupThrowProps.gthrow_in_step.
Print Assumptions GroupThrowProps.gthrow_clear.
Print Assumptions GroupThrowProps.gthrow_retry.
Print Assumptions GroupThrowProps.gthrow_undo.
Print Assumptions GroupThrowProps.gthrow_again.
Print Assumptions GroupThrowProps.gthrow_terminates.
Print Assumptions GroupThrowProps.gthrow_quiet.
Print Assumptions GroupThrowProps.gthrow_missed_refuted.
Print Assumptions GroupThrowProps.gthrow_last_refuted.
(* C118 *)
Print Assumptions NotifyThrowProps.nthrow_nested.
Print Assumptions NotifyThrowProps.nthrow_cascade.
Print Assumptions NotifyThrowProps.nthrow_passive.
Print Assumptions NotifyThrowProps.nthrow_repeat.
Print Assumptions NotifyThrowProps.nthrow_break.
Print Assumptions NotifyThrowProps.nthrow_return_refuted.
(* C119 *)
Print Assumptions GroupMoveProps.gmove_groups.
Print Assumptions GroupMoveProps.gmove_sources.
Print Assumptions GroupMoveProps.gmove_knows.
Print Assumptions GroupMoveProps.gmove_gone.
Print Assumptions GroupMoveProps.gmove_one.
Print Assumptions GroupMoveProps.gmove_safe.
Print Assumptions GroupMoveProps.gmove_told.
Print Assumptions GroupMoveProps.gmove_move.
Print Assumptions GroupMoveProps.gmove_assign.
Print Assumptions GroupMoveProps.gmove_self_refuted.
(* C120 *)
Print Assumptions PlainSerialProps.pserial_write_total.
Print Assumptions PlainSerialProps.pserial_round_trip.
Print Assumptions PlainSerialProps.pserial_truncated.
Print Assumptions PlainSerialProps.pserial_any_bytes.
Print Assumptions PlainSerialProps.pserial_in_place_partial.
Print Assumptions PlainSerialProps.pserial_in_place_refuted.
