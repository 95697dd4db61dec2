{"claims": [
  {"property": "C01", "status": "proved", "theorems": ["vset_is_sorted_set", "vset_refines_sorted_list"], "note": "Every history of insert/emplace/erase/clear, every strict weak order; the multi-variable refinement theorem covers all other operations."},
  {"property": "C02", "status": "proved", "theorems": ["vset_order_statistics"], "note": "Every legal program over any number of sets."},
  {"property": "C03", "status": "proved", "theorems": ["vset_lookup_and_bounds", "vset_bounds_of_prefix_key_refuted"], "note": "Proved for keys equivalent to at most one element (always so when the key is an element); the refuted theorem shows what happens for prefix-like keys that match several elements."},
  {"property": "C04", "status": "proved", "theorems": ["vset_iteration_orders_agree", "vset_neighbours"], "note": "GetSuccessor climbs only in calls that the public functions never make; vset_neighbours covers it."},
  {"property": "C05", "status": "proved", "theorems": ["vset_refines_sorted_list", "vset_live_nodes_are_elements"], "note": "UB (null or freed node, endless loop) is an outcome of the pointer-level model; legal programs never reach it."},
  {"property": "C06", "status": "partial", "theorems": ["vset_depth_after_insertions", "vset_depth_after_erasures_refuted"], "note": "C06a proved for every insert/emplace/clear history; C06b refuted: erasures can leave a chain of any length."},
  {"property": "C07", "status": "partial", "theorems": ["vset_copy_independent", "vset_self_assign_refuted"], "note": "Copies proved equal and independent; x = x empties the set, for every reachable set."},
  {"property": "C08", "status": "partial", "theorems": ["ring_refines_bounded_deque_partial", "ring_no_leak", "ring_keeps_last_pushed", "ring_push_own_front_refuted", "ring_push_own_back_refuted"], "note": "All histories; refuted only when a full ring is asked to append the very element of its own that has to make room (undefined behaviour in the code)."},
  {"property": "C09", "status": "proved", "theorems": ["ring_reserve_keeps_tail", "ring_refines_bounded_deque_partial"], "note": "reserve with a null buffer is covered by the refinement theorem."},
  {"property": "C10", "status": "partial", "theorems": ["ring_at_checked_partial", "ring_at_size_refuted"], "note": "at(k) is checked for every k except size(): refuted there for every reachable ring."},
  {"property": "C11", "status": "partial", "theorems": ["ring_copy_independent", "ring_equality_is_content_equality", "ring_copy_of_null_refuted"], "note": "Proved for rings that own a buffer; refuted for default-constructed and moved-from sources."},
  {"property": "C12", "status": "partial", "theorems": ["decimal_text_round_trip_partial", "decimal_text_exponent_refuted", "decimal_text_wrapped_denominator_refuted"], "note": "Sign and value round-trip for every decimal of every instance whose denominators fit the mantissa (64/4, 128/4, 128/5, ...); mantissa and exponent too unless there are trailing zeros (refuted: 1.50). Refuted for decimal<uint64_t,5>, whose denominators wrap."},
  {"property": "C13", "status": "partial", "theorems": ["decimal_order_by_value", "decimal_order_total", "decimal_order_transitive", "decimal_negative_zero_refuted", "decimal_order_wrapped_denominator_refuted"], "note": "Trichotomy, transitivity and agreement with the rational order for all pairs; the only exception, -0 < +0, is characterised exactly and refutes the claim as stated. Refuted for decimal<uint64_t,5>."},
  {"property": "C14", "status": "partial", "theorems": ["decimal_add_sub_exact_partial", "decimal_add_overflow_refuted"], "note": "Exact whenever the result is representable with the larger exponent; throws only if an operand cannot be aligned; overflow of the sum itself is silent (refuted)."},
  {"property": "C15", "status": "proved", "theorems": ["decimal_extend_exact", "decimal_truncate_toward_zero", "decimal_normalize_minimal", "decimal_rescale_round_trip"], "note": "Exceptions characterised exactly: thrown iff no decimal with that many digits has the value."},
  {"property": "C16", "status": "partial", "theorems": ["decimal_floor_ceil_bounds_partial", "decimal_floor_negative_refuted"], "note": "Holds for non-negative decimals; for negative ones floor and ceil are exchanged (refuted)."},
  {"property": "C17", "status": "partial", "theorems": ["decimal_parse_exact_partial", "decimal_parse_counter_refuted", "decimal_parse_wrap_refuted", "decimal_parse_empty_refuted"], "note": "Complete characterisation for every text whose fraction has fewer than 256 digits up to the last non-zero one; beyond that the uint8_t counters wrap (refuted); empty text is undefined behaviour."},
  {"property": "C18", "status": "proved", "theorems": ["decimal_bits_round_trip"], "note": "Bijection between the 2^W patterns and the decimals, for every UInt width and exp_len."},
  {"property": "C19", "status": "partial", "theorems": ["decimal_multiply_exact_partial", "decimal_multiply_overflow_refuted", "decimal_multiply_undefined_refuted"], "note": "Exact whenever the product is representable with the sum of the exponents; otherwise silently wrong or undefined (refuted)."},
  {"property": "C20", "status": "proved", "theorems": ["quick_list_refines_sequences", "quick_list_backward_is_reverse", "quick_list_excluded_is_nowhere", "quick_list_operations_are_local", "quick_list_clear_refuted", "quick_list_self_splice_refuted", "quick_link_self_move_refuted"], "note": "Pointer-level model of quick_list/quick_link/single_list; all programs meeting the stated preconditions. The _refuted theorems record what happens outside them (elements of a cleared list, splicing a list with itself, self move assignment)."},
  {"property": "C21", "status": "proved", "theorems": ["notify_calls_each_once", "notify_while_true_stops", "notify_self_unsubscribe", "clear_observers_unsubscribes", "notify_unsubscribe_next_refuted", "notify_resubscribe_refuted"], "note": "Notify over the pointer-level lists; observers are arbitrary list programs depending on the calls made so far that leave the observers still to be called alone. Unsubscribing the observer that is to be called next is undefined (refuted theorem); nested notifications are not modelled."},
  {"property": "C22", "status": "proved", "theorems": ["observable_sets_refine_bags", "mirror_shows_source", "mirror_insert_refuted"], "note": "for every program over any number of observable sets, mirrors, mirrors of mirrors and foreign sets; contents are taken at the level of the vector_set specification (C01-C05). mirror_insert_refuted shows what happens outside the precondition (the source's insert throws logic_error)."},
  {"property": "C23", "status": "proved", "theorems": ["observable_sets_refine_bags", "foreign_set_groups_source", "foreign_insert_refuted"], "note": "integer keys; precondition: no two elements share both keys (foreign_insert_refuted: otherwise the assertions fail). Observers subscribed to the foreign set itself are not modelled."},
  {"property": "C24", "status": "proved", "theorems": ["update_queue_refines_fifo", "update_queue_exactly_once_in_order", "update_queue_order_kept", "update_queue_frees_every_block", "update_queue_no_data_race", "update_queue_nested_apply_refuted"], "note": "at the level of list pointers, composed with the quick_list refinement; critical sections are atomic steps (sequential consistency, a correct mutex). An update that itself calls ApplyUpdates violates the precondition (update_queue_nested_apply_refuted)."},
  {"property": "C25", "status": "proved", "theorems": ["atomic_storage_history", "atomic_storage_save_crash", "atomic_storage_save_load", "atomic_storage_new", "process_crash_format"], "note": "Any prefix of the file operations of Save, each byte of a write being one. What a crash leaves of unflushed data is a parameter (torn); the format must refuse torn backups, which process_crash_format reduces to refusing proper prefixes when only the process dies. Nothing is assumed about a torn master."},
  {"property": "C26", "status": "proved", "theorems": ["atomic_storage_recovery_idempotent", "atomic_storage_history"], "note": "Any number of interrupted loads, from any state that a history of saves, crashes and loads leads to."},
  {"property": "C27", "status": "partial", "theorems": ["atomic_storage_failed_save_refuted", "atomic_storage_mixture_refuted", "atomic_storage_failed_save_load_partial", "atomic_storage_history"], "note": "The code violates the claim: a second Save after a failed one overwrites the only good copy; Load then finds nothing, or a mixture. What holds: a failed Save followed by a completed Load or Save (atomic_storage_history includes these)."},
  {"property": "C28", "status": "proved", "theorems": ["hash_stream_round_trip", "hash_stream_layout"], "note": "Any hash function of fixed size, any block size larger than it, any division into writes and any program of reads and End. The underlying stream returns what is asked for or what is left and its Write does not fail."},
  {"property": "C29", "status": "proved", "theorems": ["hash_stream_detects", "hash_stream_any_file", "hash_stream_cut_at_block", "crc_stream_detects_burst", "crc_stream_detects_value"], "note": "The first altered block is refused unless it is again bytes followed by their hash; with Crc64 an alteration of up to 8 consecutive bytes of data, or of the stored value, is always refused. hash_stream_any_file: no undefined behaviour for any file up to the first exception. hash_stream_cut_at_block: whole missing blocks at the end are not noticed, which the property does not promise."},
  {"property": "C30", "status": "proved", "theorems": ["crc64_detects_burst", "crc64_detects_8_bytes", "crc64_is_jones", "crc64_seed_injective", "crc64_ints_bytes", "int64_hash_is_crc", "crc64_9_bytes_refuted"], "note": "Any 64 consecutive bits, aligned or not; the table is shown to compute the bitwise Jones CRC for every message; nine bytes are shown not to suffice."},
  {"property": "C31", "status": "partial", "theorems": ["codec_round_trip", "codec_round_trip_default", "codec_write_total", "codec_prefix_free", "codec_initializer_refuted"], "note": "Proved for every type of the universe (integers, bools, enums, strings, time points, optionals and pointers, arrays, bitsets, vectors, deques, rings, sets, maps, variants, tuples, structures, nested) and every value. Refuted only for structures with default member initializers that leave an optional or container non-empty. Unordered containers are in C88."},
  {"property": "C32", "status": "proved", "theorems": ["codec_truncated", "codec_local", "codec_storage_format", "codec_storage_history", "vts_truncated", "vts_local", "vts_prefix"], "note": "Every proper prefix gives EndOfFileException, in the plain and in the version tolerant format; with it the atomic storage of any serializable value survives process crashes."},
  {"property": "C33", "status": "partial", "theorems": ["codec_replaces_partial", "codec_optional_keeps_refuted", "codec_deque_appends_refuted", "codec_set_merges_refuted"], "note": "The code violates it for optionals, pointers, deques, rings, sets and maps (proved in general); it holds for all bytes and all types without them."},
  {"property": "C34", "status": "partial", "theorems": ["codec_no_ub_partial", "codec_any_bytes", "codec_variant_refuted", "vts_index_refuted"], "note": "The index of a variant and the index of a structure in versioned data are only asserted: undefined behaviour for every out-of-range index. Without variants plain reading has none for any bytes, and whatever is accepted has the invariants of its type."},
  {"property": "C35", "status": "partial", "theorems": ["vts_tolerant_partial", "vts_fields_partial", "vts_round_trip", "vts_write_total", "mig_has_ty", "vts_removed_type_refuted", "vts_empty_struct_refuted", "vts_skip_conflict_refuted"], "note": "Proved for every pair of versions and every value under the relation evolves (any order, addition, removal, renaming and nesting of fields); what is read is a value of the new type (mig_has_ty). The code violates it when a removed field has a type whose name the new program does not have, when fields are added to an empty structure, and when a removed vector of structures is skipped as another one (each refuted by an example)."},
  {"property": "C36", "status": "partial", "theorems": ["vts_mismatch_partial", "vts_mismatch_nested_partial", "vts_sign_refuted", "vts_bool_refuted", "vts_bools_lost_refuted", "vts_name_is_shape"], "note": "A field of the structure that is read whose type names differ always ends in an exception (TypeMismatchException or, for types known by name, another IoException). vts_mismatch_nested_partial: so does a mismatch anywhere in the data, in nested structures, containers, optionals and variants, with the provisos of C89. Types with one name are not distinguished: signed and unsigned, bool and uint8_t (refuted). vts_name_is_shape: two types have one name exactly if they have one shape, which is defined without names."},
  {"property": "C37", "status": "proved", "theorems": ["composite_lexicographic", "composite_strict_weak", "reverse_strict_weak", "key_compare_coherent", "transparent_reverse_coherent", "transparent_composite_coherent", "coherent_strict_weak", "coherent_keys_ok", "coherent_lookup", "coherent_vset"], "note": "Comparers are functions to bool; the pointer specializations need non-null pointers. The keys of all parts of a transparent composite are in one type."},
  {"property": "C38", "status": "proved", "theorems": ["int_array_round_trip", "array_int_round_trip", "to_array_big_endian"], "note": "All integer types of at least one byte, signed or not; shifts of signed values as in C++20."},
  {"property": "C39", "status": "partial", "theorems": ["bitmap_is_set_partial", "bitmap_initializer_refuted"], "note": "Every program over bitmaps of any size, provided that initializer lists name the first 64 enumerators only; an initializer list with a later one shifts by 64 or more, which is undefined: bitmap_initializer_refuted. std::bitset is taken from the standard."},
  {"property": "C40", "status": "partial", "theorems": ["interval_latest_partial", "interval_function_partial", "interval_distinct_partial", "interval_assign_exact", "interval_gap_refuted", "interval_max_refuted"], "note": "Violated as stated: intervals with one value are merged although there is a gap between them (interval_gap_refuted), and a second assignment up to the largest key overflows (interval_max_refuted). Proved: assigned keys always have the value of the last assignment; exact behaviour of assign including the filled gaps; the statement itself for histories without such gaps. Iterators are in C90."},
  {"property": "C41", "status": "partial", "theorems": ["timer_never_early_partial", "timer_all_resumed_partial", "timer_loop_bounded", "timer_latest_first", "timer_order_with_greater", "timer_order_refuted", "timer_delayed_by_longest"], "note": "Violated: the priority queue is a max-heap, so the handle with the latest deadline is resumed first (timer_order_refuted, timer_latest_first) and a short timer waits for the longest one (timer_delayed_by_longest). Proved: no handle is resumed before its deadline, each is resumed exactly once, loop makes at most two iterations per push. Overflow of now() + timeout is not modelled."},
  {"property": "C42", "status": "partial", "theorems": ["sleep_reason_partial", "sleep_no_dangling", "sleep_ends_at_deadline_partial", "sleep_prompt_partial", "sleep_lost_wakeup_refuted"], "note": "Violated: a notification between the check of the predicate and the wait is lost because the callback does not lock the mutex (sleep_lost_wakeup_refuted). Proved for all interleavings: sleep_for returns only after the duration or a stop request, it returns after the deadline, the callback never touches a destroyed condition variable, and it returns promptly in all interleavings without a notification in that window."},
  {"property": "C43", "status": "partial", "theorems": ["aggregator_calls_exact", "aggregator_latest_partial", "aggregator_cancelled", "aggregator_again_refuted", "aggregator_moved_refuted"], "note": "Violated: once complete, the function is called again by every set (aggregator_again_refuted), and then the slots that were not set again are moved-from (aggregator_moved_refuted). Proved: exactly which operations make a call; the first call, and every call for types that moving does not change, has the latest values; nothing is called after cancel. Functions that throw or use the aggregator are in C91."},
  {"property": "C44", "status": "proved", "theorems": ["pool_correct", "pool_destroys_at_most_once", "pool_destroys_exactly_once"], "note": "All histories of make, add, copies, resets and clear. The two lists are at the level of C20. The destructor requires (asserts) that no object is in use. Finalize is assumed not to use the pool."},
  {"property": "C45", "status": "partial", "theorems": ["guard_ownership_partial", "guard_exactly_once_partial", "guard_released_refuted", "guard_twice_refuted", "guard_assign_refuted", "guard_assign_lost_refuted"], "note": "Violated: moving a released guard engages it again, moving twice from one guard runs the action twice, move assignment loses an action. Proved for histories that move only from guards that own an action and do not assign such guards."},
  {"property": "C46", "status": "proved", "theorems": ["reflect_names", "reflect_cuts", "reflect_find", "reflect_spacing_refuted"], "note": "Proved for lists written with a comma and a space, as in the statement; reflect_spacing_refuted shows that other spacing, AWL_REFLECT(a,b), gives wrong names. The stringizing operator of the preprocessor is not modelled."},
  {"property": "C47", "status": "partial", "theorems": ["decimal_nanoseconds_exact_partial", "decimal_nanoseconds_refuted"], "note": "64-bit decimals with at most nine digits; refuted for more digits and for 128-bit counts."},
  {"property": "C48", "status": "partial", "theorems": ["u128_width_partial", "u128_width_refuted"], "note": "Agrees when the number fits the field; refuted otherwise."},
  {"property": "C49", "status": "partial", "theorems": ["hash_stream_reuse_refuted"], "note": "The code violates the claim: a throw leaves m_i invalidated by resize, so the next call is undefined behaviour."},
  {"property": "C50", "status": "partial", "theorems": ["insensitive_less_spec", "insensitive_equal_spec", "insensitive_trichotomy", "insensitive_strict_weak", "insensitive_negative_refuted"], "note": "For characters 0 to 255. Other characters (negative char, wide characters above 255) reach std::tolower with an argument it does not accept: insensitive_negative_refuted."},
  {"property": "C51", "status": "partial", "theorems": ["task_safe", "task_result", "task_no_lost_wakeup", "task_terminates", "task_completes", "task_await_again_refuted", "task_dropped_refuted"], "note": "Proved for structured bodies (each task awaited or released exactly once before the body ends): safety, sequential outcome, no lost wake-up, exact number of steps. Refuted outside of them: awaiting again terminates the program if the first await had to wait, and a coroutine that ends before its task leaves a dangling handle. Tasks are awaited only by the coroutine that has started them."},
  {"property": "C52", "status": "partial", "theorems": ["frame_destroyed_once", "frame_no_leak", "frame_released_running", "frame_released_leak_refuted"], "note": "Proved for ProcessTask and for an UpdateTask released while it is running; refuted for an UpdateTask that has finished when it is released: its frame is never destroyed."},
  {"property": "C53", "status": "partial", "theorems": ["generator_for", "generator_lazy", "generator_fmap", "generator_fmap_lazy", "generator_empty", "generator_second_loop_refuted", "generator_finished_loop_refuted"], "note": "Proved for the first loop over a generator; refuted for a second one: it goes on after the last value of the first one, and is undefined behaviour when the generator is at its end."},
  {"property": "C54", "status": "partial", "theorems": ["async_generator_reads", "async_generator_safe", "async_generator_loop", "async_generator_begin_again_refuted", "async_generator_begin_finished_refuted"], "note": "Proved for consumers that call begin() once; refuted for a second begin()."},
  {"property": "C55", "status": "partial", "theorems": ["watch_dog_stop_cause", "watch_dog_cancel", "watch_dog_timeout", "watch_dog_log_once", "watch_dog_destroyed", "watch_dog_destructor_stops_refuted", "watch_dog_log_lifetime_refuted", "watch_dog_log_lifetime_partial"], "note": "Proved: causes of the stop, stop on cancel and timeout, one log call, the destructor joins. Refuted: the destructor also stops the token, and m_log can be called before its construction and after its destruction; partial: it is not when the timeout elapses in the lifetime of the object and the destructor does not begin between the timeout and the call."},
  {"property": "C56", "status": "partial", "theorems": ["persistent_file_round_trip", "persistent_file_truncated", "persistent_file_damaged", "persistent_other_header", "persistent_snapshot", "persistent_history", "persistent_object", "persistent_upgrade", "persistent_upgraded_history", "persistent_object_refuted", "optional_object_refuted"], "note": "Proved for any types, any hash of a fixed length shorter than a block, any pair of versions related by evolves, and two kinds of crashes: a file being written is cut anywhere (no assumption on the hash), or contains anything without a forged block. Violated: if a crash leaves bytes behind a complete file, load() returns false but has changed the value (persistent_object_refuted; not with files that are only cut: persistent_object), and load() of an OptionalObject without files throws (optional_object_refuted). Types are move-assignable, see C57 for the others; ReadOldVersion is not overridden; failures of the file system other than crashes are those of C27."},
  {"property": "C57", "status": "partial", "theorems": ["in_place_read_keeps_partial", "in_place_read_replaced_partial", "in_place_read_refuted"], "note": "For types that cannot be moved: proved for IoExceptions if no optional, pointer, deque, set or map has got anything in it when the exception is thrown, so for types without these. Violated for the others: the snapshot is read into an object that is not empty, so a deque has its elements twice (in_place_read_refuted). What is in the object when the exception is thrown is universally quantified. Types that can be moved are read into a new object, so that an exception leaves the old one by construction of the model (object_load_file). Exceptions other than IoException are not caught by the code and leave a half read object, which is so by definition in the model too."},
  {"property": "C58", "status": "partial", "theorems": ["persistent_unmoved_partial", "persistent_moved_refuted", "persistent_dangling_refuted"], "note": "Violated: the implicit move constructor copies the references inside the serializable, so the moved object saves and loads the value of the old one, which is undefined once that is destroyed. Proved for objects that have not been moved."},
  {"property": "C59", "status": "partial", "theorems": ["command_line_complete", "command_line_sound", "command_line_refuses", "command_line_unused", "command_line_short_refuted", "command_line_value_refuted"], "note": "Complete, sound and refusing for names of two or more characters that begin with a letter and values that do not look like options; names of one letter or with a leading underscore, and values such as --list, can not be passed (refuted)."},
  {"property": "C60", "status": "partial", "theorems": ["formatter_round_trip_partial", "attribute_passed_partial", "attribute_default", "attribute_number", "attribute_unsigned_refuted", "attribute_flag_refuted", "formatter_strings_refuted", "attribute_malformed_refuted"], "note": "Round trip for values whose strings have no white space and are not empty, and for flags that are true; unsigned int from 2^31 on is replaced by the default, false is read as true, malformed numbers are accepted (refuted). Floating point left out."},
  {"property": "C61", "status": "partial", "theorems": ["test_run_filtered", "test_run_named", "test_run_unknown", "test_list", "test_duplicates", "test_exit_code_refuted", "test_crash_refuted", "test_run_again_refuted", "test_run_command"], "note": "Selection, order, repetition and output are proved; the exit code is the negation of what is expected, exceptions other than TestException terminate the program, and a second Run has no tests (refuted)."},
  {"property": "C62", "status": "partial", "theorems": ["factory_create", "factory_exact_partial", "factory_lvalue_never", "factory_lvalue_refuted", "factory_duplicate_refuted"], "note": "create finds the last registered function of exactly the deduced signature; an lvalue argument never finds a function that takes a value, and duplicates shadow each other silently (refuted)."},
  {"property": "C63", "status": "partial", "theorems": ["throws_partial", "throws_refuted"], "note": "Holds if E is not TestException or one of its bases; for those the assertion holds although nothing is thrown (refuted)."},
  {"property": "C64", "status": "partial", "theorems": ["vector_stream", "std_stream", "posix_stream_partial", "streams_pieces", "read_raw_vector", "read_raw_std", "read_raw_posix_partial", "read_raw_posix_refuted", "std_not_open_refuted", "measure_length", "posix_file_partial", "posix_round_trip_partial", "posix_end_refuted", "win_file_partial", "win_seek_refuted", "win_write_refuted"], "note": "Proved for the streams over vectors and std::istream. For native files only within the limits of read(2), write(2) and DWORD, for the position within the file, and on Windows for calls that succeed; each of these limits has a refutation: a read of more than 0x7ffff000 bytes is taken for the end of the file, End() is false beyond the end, SetFilePointerEx errors are lost, a write of 2^32+5 bytes writes five."},
  {"property": "C65", "status": "partial", "theorems": ["handles_owned_partial", "handles_closed_partial", "unique_handles", "shared_copy_null_refuted", "shared_self_assign_refuted", "unique_ptr_partial", "unique_ptr_reentrant_refuted", "handles_exact", "handles_exact_closed", "handles_expected", "handles_swap", "handles_equal", "unique_ptr_exact", "unique_ptr_equal"], "note": "Proved for UniqueHandle and, if null handles are not copied and no handle is assigned to itself, for SharedHandle on Windows; both cases are refuted, because INVALID_HANDLE_VALUE is the pseudo handle of the process. handles_exact says what the objects refer to with these copies as well: one owner for each open handle and no handle left open hold in all runs. swap and operator== are proved. unique_ptr: unique_ptr_exact covers all runs, and they are undefined exactly if an object whose destructor resets its own pointer is deleted (unique_ptr_reentrant_refuted)."},
  {"property": "C66", "status": "proved", "theorems": ["wire_format", "wire_read", "wire_injective", "wire_versioned", "wire_persistent"], "note": "The layout is a relation of its own (WireSpec.v). The machine is little endian and size_t has 64 bits; the names of types in descriptions are those of the model of TypeDescriptor.h."},
  {"property": "C67", "status": "partial", "theorems": ["enum_index", "enum_string", "enum_parse", "enum_parse_i", "enum_round_trip_i_partial", "enum_case_refuted", "enum_initializer_refuted"], "note": "enum_from_string_i inverts enum_to_string only if the names differ in more than case; enumerators with initializers compile and make enum_to_string read beyond the names. The underlying type is uint8_t, so there are no values below zero."},
  {"property": "C68", "status": "partial", "theorems": ["types_complete", "types_minimal", "types_program", "types_extra_refuted", "types_tuple_refuted"], "note": "Needs that extra types bring no structures of their own and that no field is a tuple; both are shown to be necessary (the program does not compile otherwise)."},
  {"property": "C69", "status": "proved", "theorems": ["type_index"], "note": "For structures with at least one field each; an empty structure does not compile."},
  {"property": "C70", "status": "partial", "theorems": ["decimal_to_double_partial", "decimal_to_double_order_partial", "decimal_from_double_partial", "decimal_from_exact_double_partial", "decimal_from_large_double_partial", "decimal_double_round_trip_partial", "decimal_double_truncated_partial", "decimal_double_round_trip_refuted", "decimal_to_double_refuted", "decimal_double_distinct_refuted", "decimal_truncated_refuted", "decimal_floored_refuted", "decimal_assign_magnitude_refuted", "decimal_from_large_refuted"], "note": "For binary64 to nearest even and finite values; up to 53 bits and 22 digits. Refuted: 0.29 truncated to two digits is 0.28, make_floored(0.3, 1) is above and make_ceiled(1.1, 1) below the argument, no round trip beyond 2^51 units, too large numbers are reduced silently or undefined. float and long double are not modelled."},
  {"property": "C71", "status": "partial", "theorems": ["decimal_add_double_partial", "decimal_times_double_partial", "decimal_divide_double_partial", "decimal_divide_zero", "decimal_assign_integer_partial", "decimal_cast_integer_partial", "decimal_truncated_refuted", "decimal_cast_integer_refuted", "decimal_assign_integer_refuted"], "note": "Error bounds where the result fits in the mantissa and in 53 bits; division by zero is undefined. Refuted: 0.29 *= 1.0 gives 0.28 and 0.29 + 0.29 gives 0.57 with one double; cast<int> narrows the mantissa before the division; integers above 2^53 are assigned through double."},
  {"property": "C72", "status": "partial", "theorems": ["multiprecision_data_partial", "multiprecision_exp_refuted", "multiprecision_man_len_partial", "multiprecision_man_len_refuted"], "note": "Refuted: an exponent that does not fit is ored into the mantissa, and man_len is computed in uint8_t, so that it is wrong for uint512_t and uint1024_t."},
  {"property": "C73", "status": "partial", "theorems": ["multiprecision_write_limit", "multiprecision_bytes", "multiprecision_round_trip_partial", "multiprecision_total", "multiprecision_truncated", "multiprecision_prefix", "multiprecision_wide_refuted", "multiprecision_malformed_refuted"], "note": "Round trip for every number that is written, which is every number of types up to 512 bits; refuted for the largest numbers of 1024 bits. Malformed data is accepted. export_bits and import_bits are modelled after the documentation of Boost."},
  {"property": "C74", "status": "partial", "theorems": ["singleton_life", "singleton_single", "shared_singleton_once", "shared_singleton_gone", "ondemand_singleton_lives", "singleton_throws", "singleton_threads_refuted", "shared_singleton_null_refuted"], "note": "Proved for calls that do not overlap. Refuted: two threads, or a constructor that calls the function, make two instances; after a nullptr from make_singleton_instance it is called again."},
  {"property": "C75", "status": "partial", "theorems": ["stop_watch_exact", "stop_watch_partial", "stop_watch_stays", "stop_watch_cast", "stop_watch_early_refuted", "stop_watch_overflow_refuted"], "note": "For durations with integer counts. Refuted: an interval shorter than a tick has elapsed at once; hours::max() and the earliest time point overflow."},
  {"property": "C76", "status": "partial", "theorems": ["position_changed_partial", "position_changed_end", "position_changed_multi_refuted"], "note": "For strict orders (sets). Refuted for multisets: an element equivalent to its neighbour is said to have moved."},
  {"property": "C77", "status": "partial", "theorems": ["math_round_partial", "math_clamp_range", "math_clamp_exchanged", "math_sign_abs", "math_round_half_refuted", "math_round_negative_refuted", "math_round_large_refuted", "math_round_range_refuted"], "note": "For non-negative numbers below 2^(p-1) - 1. Refuted: the number below 1/2 is rounded to 1, -0.75 to 0, 2^52 + 1 to 2^52 + 2; a value out of the range of the integer is undefined."},
  {"property": "C78", "status": "partial", "theorems": ["memberwise_equal", "memberwise_less", "memberwise_total_partial", "memberwise_transitive_partial", "memberwise_nan_refuted"], "note": "Total if the members are. Refuted for members that are NaN."},
  {"property": "C79", "status": "proved", "theorems": ["hash_equal", "hash_last", "hash_vector", "hash_vector_equal", "hash_collision"], "note": "std::hash of the members is any function; size_t has 64 bits."},
  {"property": "C80", "status": "partial", "theorems": ["ring_reserve_throws_partial", "ring_push_back_throws_refuted", "ring_push_front_throws_refuted", "ring_copy_throws_refuted", "ring_assign_throws_refuted"], "note": "Holds for reserve up to the leak of the new buffer. Refuted for every ring: after a throwing push the destructor destroys an element that was not constructed; a throwing copy leaks; a throwing assignment does both."},
  {"property": "C81", "status": "partial", "theorems": ["hash_out_enough", "hash_out_full_refuted", "hash_out_retry_refuted", "buffered_write_exact", "buffered_read_exact"], "note": "The file is right when the underlying stream writes as many blocks as there are; if it stops earlier for good the program is always terminated by the destructor, with or without a preceding exception from Write, and the blocks that fit are in the file. After a failure that goes away the file ends with bytes that are refused. Buffered streams are exact."},
  {"property": "C82", "status": "partial", "theorems": ["plain_reader_any_index", "plain_reader_round_trip", "plain_reader_no_ub_partial", "plain_reader_prototypes_refuted"], "note": "The round trip holds for all types; no input is undefined behaviour for types without variants; different prototypes are not noticed."},
  {"property": "C83", "status": "proved", "theorems": ["ring_iterators", "ring_iterator_shift_refuted", "ring_moved_from_refuted", "ring_iterator_equal_refuted"], "note": "Positions are 64-bit; std::reverse_iterator is modelled as the element before its base; comparison with == and < only."},
  {"property": "C84", "status": "proved", "theorems": ["vset_exceptions", "vset_insert_leak_refuted", "vset_copy_leak_refuted", "vset_assign_throws_refuted"], "note": "Asserts disabled; destructors and the comparator's own copies do not throw. The _refuted theorems are the leaks and the lost elements."},
  {"property": "C85", "status": "proved", "theorems": ["encode_string_spec", "decode_string_spec", "decode_string_length", "encode_string_injective", "log_string_zero_refuted", "log_wide_throws", "log_wide_refuted"], "note": "wcsrtombs and mbsrtowcs are written down from their documentation"},
  {"property": "C86", "status": "proved", "theorems": ["fixed_string_programs", "fixed_string_terminator_refuted", "from_ascii_ascii", "from_ascii_refuted", "separator_joins", "separator_char_joins", "fixed_hash_agrees", "fixed_hash_array_refuted", "int_range_spec", "make_count_negative_refuted"], "note": "the refuted ones are parts of the statement"},
  {"property": "C87", "status": "proved", "theorems": ["every_date", "make_time_zero_based", "make_time_late", "make_time_calendar_refuted", "make_time_failure_refuted", "make_time_range_refuted", "make_time_fraction", "format_duration_spec", "duration_text_unique", "format_duration_injective", "format_duration_min_refuted", "format_duration_clang_spec"], "note": "no daylight saving time; mktime and hh_mm_ss are written down from their documentation"},
  {"property": "C88", "status": "proved", "theorems": ["unordered_set_round_trip", "unordered_set_truncated", "unordered_set_any_bytes", "unordered_set_keeps_refuted", "unordered_map_round_trip", "unordered_map_truncated", "unordered_map_any_bytes", "insert_std_ok", "unordered_file_refuted"], "note": "Containers that are not inside other types, without a context; the elements are of any type of C31."},
  {"property": "C89", "status": "partial", "theorems": ["vts_any_version_partial", "vts_no_delete_partial", "faithful_unpacked", "vts_packed_bools_refuted", "vts_empty_struct_refuted"], "note": "Proved for all pairs of programs in which types with one name have one layout (every pair without vector<bool>, array<bool, n> and bitset, faithful_unpacked) and no structure without fields is written. Both are necessary: a vector<bool> that has become a vector<uint8_t> is not noticed and leads to undefined behaviour (vts_packed_bools_refuted), and an empty structure to which fields are added is read beyond its data (vts_empty_struct_refuted)."},
  {"property": "C90", "status": "partial", "theorems": ["interval_iteration_partial", "interval_iteration_latest_partial", "interval_iteration_refuted", "interval_reverse_refuted"], "note": "Violated as stated: the length of an interval is computed in the type of the keys, so for int a loop over an interval longer than INT_MAX overflows (interval_iteration_refuted), and operator -- throws, so reverse iterators cannot be dereferenced (interval_reverse_refuted). Proved for all histories of C40 with keys not further apart than the largest key."},
  {"property": "C91", "status": "partial", "theorems": ["aggregator_reentrant", "aggregator_quiet_partial", "aggregator_recursion", "aggregator_reentrant_refuted", "aggregator_throw_refuted"], "note": "Violated: a function that sets a value before it cancels recurses for ever (aggregator_recursion, for every function that begins with a set), and after an exception the other arguments are moved-from (aggregator_throw_refuted). Proved for every function: the calls are those of C43 for the operations in the order in which they begin; a function that sets nothing before it cancels always returns."},
  {"property": "C92", "status": "partial", "theorems": ["decimal_to_float_partial", "decimal_to_float_order_partial", "decimal_to_float_error_partial", "decimal_float_round_trip_partial", "decimal_float_round_trip_refuted", "decimal_to_float_refuted", "decimal_float_distinct_refuted"], "note": "Nearest: at most 24 bits and 22 digits (for 13 to 22 digits by the distance of all 24-bit multiples from the middles of the floats, from Euclid's algorithm); order and round trip: at most 24 and 23 bits and 22 digits; the error: any mantissa and at most 22 digits. The refuted theorems show that the limits on the bits are needed. Infinities and NaN do not occur; long double is not modelled."},
  {"property": "C93", "status": "proved", "theorems": ["notify_nested", "notify_cascade", "notify_nested_unsubscribe_refuted", "notify_recursion"], "note": "The specification (notified / called / done) is a big-step semantics on sequences; the model is a call stack machine over pointer-level lists. The comment of Notify allows an observer to unsubscribe itself while it is called; notify_nested_unsubscribe_refuted shows that this is not so under a nested notification."},
  {"property": "C94", "status": "proved", "theorems": ["task_owned_once", "task_no_leak", "task_careful_safe", "task_wait_chain", "task_all_finish", "task_is_ready", "task_is_done", "task_eager_start", "task_get_once", "task_release_no_leak", "task_release_finished_refuted", "task_get_unready_refuted", "task_free_suspended_refuted", "task_overwrite_suspended_refuted", "task_self_move_refuted", "task_awaiter_destroyed_refuted", "task_await_cycle_refuted", "task_get_result", "task_await_result"], "note": "The refuted theorems show that the conditions are needed: release() of a finished UpdateTask leaks its coroutine, get() before the end, destruction of a suspended or awaiting coroutine and self-move lead to undefined behaviour, coroutines that await each other never finish."},
  {"property": "C95", "status": "partial", "theorems": ["vts_session", "vts_reader_any_state", "vts_rejected_state", "vts_one_target", "vts_initialize", "vts_retry_refuted"], "note": "Proved for all sessions and states; violated after a type mismatch: FindProtoMap puts the element into protoMaps before MakeProtoMap throws, so the next ReadV takes the empty map for an unchanged structure (vts_retry_refuted)."},
  {"property": "C96", "status": "partial", "theorems": ["jstop_safe_partial", "jstop_source_safe", "jstop_allowed", "jstop_early_delete", "jstop_unlocks", "jstop_wait", "jstop_token_refuted", "jstop_callback_refuted"], "note": "Proved for executions with a source that exists all the time (jstop_source_safe) and for those without a premature deletion (jstop_safe_partial). The general statement is false: jstop_token_refuted, jstop_callback_refuted; jstop_early_delete says that each excluded step deletes the state while something refers to it. Memory orders are not modelled."},
  {"property": "C97", "status": "proved", "theorems": ["jcv_safe", "jcv_locked", "jcv_return", "jcv_stop", "jcv_stop_bounded", "jcv_notify", "jcv_notify_bounded", "jcv_mutex", "jcv_destructor", "jcv_deadlock"], "note": "The stop state is taken as C96 specifies it (it exists while a wait uses it); predicates do not throw and depend on the data that the lock protects."},
  {"property": "C98", "status": "proved", "theorems": ["jthread_history", "jthread_allowed", "jthread_owner", "jthread_asked", "jthread_returns", "jthread_terminate", "jthread_keeps_source", "jthread_self_refuted", "jthread_cycle_refuted"], "note": "jthread_self_refuted shows that the exception of the last statement happens; jthread_cycle_refuted that a destructor need not return although all threads have been asked to stop; jthread_keeps_source that an object can ask its thread to stop after it has detached it. The stop state is the flag that C96 proves."},
  {"property": "C99", "status": "proved", "theorems": ["vset_iterators_stable"], "note": "Iterators are named by the node they point to; the last conjunct says that the node itself still holds the value."},
  {"property": "C100", "status": "partial", "theorems": ["save_mutex_consistent", "save_mutex_no_race", "save_mutex_progress", "save_mutex_crash", "save_mutex_load", "save_mutex_concurrent_refuted"], "note": "The crash and load theorems are for one Save at a time; save_mutex_concurrent_refuted shows that two concurrent calls lose the data although both return."},
  {"property": "C101", "status": "partial", "theorems": ["pool_finalize_correct", "pool_finalize_this_safe", "pool_finalize_handout_partial", "pool_finalize_make_refuted", "pool_finalize_clear_refuted", "pool_finalize_recursion_refuted"], "note": "Partial because the code hands out the object that is being finalized, recurses without bound and deletes the object under its own Finalize in the cases that the refuted theorems give; the rest is proved for all scripts."},
  {"property": "C102", "status": "partial", "theorems": ["uq_push_throw_strong", "uq_push_throw_safe", "uq_no_leak_partial", "uq_release_partial", "uq_push_leak_refuted", "uq_push_recycled_leak_refuted", "uq_release_refuted"], "note": "Proved: a Push that throws changes nothing that can be seen. Partial: leaks are bounded by the number of calls that threw, copies are released if ClearPending is not used; the refuted theorems show that the code does not guarantee more."},
  {"property": "C103", "status": "partial", "theorems": ["wd_sleep_refines", "wd_sleep_safe", "wd_sleep_no_dangling", "wd_sleep_destroyed", "wd_sleep_prompt_partial", "wd_sleep_destructor_waits_refuted"], "note": "The promptness of the destructor is refuted (lost notification in sleep_for); it is proved for executions in which the notification does not fall between the check and the wait."},
  {"property": "C104", "status": "partial", "theorems": ["comp_key_orders", "comp_key_coherent", "comp_key_vset", "comp_key_ub", "make_key_partial", "make_key_types", "make_key_refuted"], "note": "make_key is refuted for argument types whose common type with the member is another type (C++20 rules for tuple conversion); proved for all others."},
  {"property": "C105", "status": "proved", "theorems": ["gen_var_refines", "gen_var_owner", "gen_var_handles", "gen_var_self"], "note": "The body of a coroutine is a parameter that may be undefined itself; the memory for frames is available."},
  {"property": "C106", "status": "proved", "theorems": ["async_drop_conservative", "async_drop_safe", "async_drop_used", "async_drop_both", "async_drop_consumer", "async_drop_waiting", "async_drop_waiting_refuted"], "note": "async_drop_waiting_refuted: a generator whose coroutine is suspended cannot always be destroyed safely; the program of the theorem reaches it."},
  {"property": "C107", "status": "proved", "theorems": ["packed_write", "packed_bits", "packed_read", "packed_round_trip"], "note": "the model of C05's bit packing (put_bits) is the result of the code's loops"},
  {"property": "C108", "status": "proved", "theorems": ["throw_nothing_dangles", "throw_returned_synced", "throw_clear_resyncs", "throw_insert", "throw_removal", "throw_users_told", "throw_terminates", "throw_missed_stays", "throw_defined", "throw_conservative", "throw_foreign_refuted"], "note": "throw_foreign_refuted shows the part that does not hold: a foreign_set behind an observer that throws"},
  {"property": "C109", "status": "proved", "theorems": ["group_observer_knows", "group_watcher_knows", "group_contents", "group_progress", "group_observer_stays", "group_subscribe"], "note": ""},
  {"property": "C110", "status": "proved", "theorems": ["reent_safe", "reent_in_step", "reent_meanwhile", "reent_ends", "reent_total", "reent_erase_refuted", "reent_dangling_refuted", "reent_twice_refuted", "reent_clear_refuted", "reent_later_refuted"], "note": "The refuted theorems show that the provisos are needed."},
  {"property": "C111", "status": "proved", "theorems": ["mem_streams_are_tapes", "mem_round_trip", "mem_length", "mem_copy_refuted", "mem_moved_from_refuted", "mem_switch_misaligned_refuted", "mem_put_misaligned_refuted", "mem_overflow_refuted", "space_destroy_refuted", "space_allocations", "space_progress", "space_misaligned_refuted"], "note": "The _refuted theorems are the uses the statement says are undefined. A failed assert counts as undefined."},
  {"property": "C112", "status": "proved", "theorems": ["list_iterators_are_places", "list_sort_loop", "list_iterator_next", "list_iterator_erased_refuted", "list_iterator_cleared_refuted", "list_insert_end_refuted"], "note": "The _refuted theorems are the exceptions that the statement names."},
  {"property": "C113", "status": "proved", "theorems": ["cotimer_not_early", "cotimer_all_end", "cotimer_bounded", "cotimer_progress", "cotimer_safe", "cotimer_forever_refuted", "cotimer_starved_refuted"], "note": "The _refuted theorems are the exceptions that the statement names."},
  {"property": "C114", "status": "proved", "theorems": ["mirmove_safe", "mirmove_in_step", "mirmove_one_list", "mirmove_told", "mirmove_same", "mirmove_move", "mirmove_assign", "mirmove_destroy", "mirmove_ring", "mirmove_assign_refuted", "mirmove_self_refuted", "mirmove_again_refuted", "mirmove_more_refuted", "mirmove_twice_refuted"], "note": "mirmove_ring: the proviso about assignment from below is exact. The _refuted theorems show that the others are needed."},
  {"property": "C115", "status": "partial", "theorems": ["vset_ctor_ok", "vset_ctor_order", "vset_range_throws", "vset_init_throws", "vset_ctor_leak_refuted"], "note": "Everything is proved except that nothing is lost by an exception, which is false: vset_ctor_leak_refuted."},
  {"property": "C116", "status": "partial", "theorems": ["own_timer", "own_once", "own_safe", "own_no_leak", "own_dangling", "own_destroyed_refuted", "own_late_refuted"], "note": "Proved for programs that do not destroy tasks of waiting coroutines; own_dangling and own_destroyed_refuted show what happens in the others."},
  {"property": "C117", "status": "proved", "theorems": ["gthrow_effect", "gthrow_contents", "gthrow_no_ghost", "gthrow_in_step", "gthrow_clear", "gthrow_retry", "gthrow_undo", "gthrow_again", "gthrow_terminates", "gthrow_quiet", "gthrow_missed_refuted", "gthrow_last_refuted"], "note": "gthrow_missed_refuted: an observer after the one that throws misses the element for good; gthrow_last_refuted: the same observer's exception is thrown or terminates the program."},
  {"property": "C118", "status": "proved", "theorems": ["nthrow_nested", "nthrow_cascade", "nthrow_passive", "nthrow_repeat", "nthrow_break", "nthrow_return_refuted"], "note": "nthrow_return_refuted: an observer that unsubscribes the next one and returns true, against the same that returns false."},
  {"property": "C119", "status": "proved", "theorems": ["gmove_groups", "gmove_sources", "gmove_knows", "gmove_gone", "gmove_one", "gmove_safe", "gmove_told", "gmove_move", "gmove_assign", "gmove_self_refuted"], "note": "gmove_self_refuted: f = std::move(f)."},
  {"property": "C120", "status": "partial", "theorems": ["pserial_write_total", "pserial_round_trip", "pserial_truncated", "pserial_any_bytes", "pserial_in_place_partial", "pserial_in_place_refuted"], "note": "Proved for the atomic PlainSerializable, which is the default. Not atomic: pserial_in_place_partial is for types without optionals, deques, sets and maps, and what a value contains after a Read into it has thrown is not modelled; pserial_in_place_refuted: optionals."}
]}
