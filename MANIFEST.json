{"claims": [
{"property": "C01", "status": "proved", "theorems": ["vec_mutation_is_invisible_elsewhere"], "note": "Any op over any reachable heap; single-threaded heap model."},
{"property": "C02", "status": "proved", "theorems": ["vec_programs_compute_the_lists", "vec_splice_copy_of_unrelated_storage", "splice_copy_whole_refuted"], "note": "All API edits refine list edits; whole replacement by a view starting at own storage with different size is refuted (code treats it as self-assignment)."},
{"property": "C03", "status": "proved", "theorems": ["vec_refcounts_are_exact", "vec_programs_do_not_leak"], "note": "UB-freedom, exact refcounts at every point, no leak."},
{"property": "C04", "status": "proved", "theorems": ["packed_big_roundtrip", "packed_big_injective", "packed_small_roundtrip", "inline_elements_clear_of_control_word", "inline_elements_clear_of_control_word_refuted"], "note": "Holds for all element sizes except 5,7,13,14,15, where the inline elements overlap the control word (refuted)."},
{"property": "C05", "status": "proved", "theorems": ["vec_reserve_then_push_in_place"], "note": ""},
{"property": "C06", "status": "proved", "theorems": ["arc_alloc_never_under_allocates", "alloc_count_covers_request", "uniq_alloc_never_under_allocates"], "note": "Byte rounding, exit on overflow, element counts."},
{"property": "C07", "status": "proved", "theorems": ["views_stay_inside_and_slice", "view_index_in_bounds", "view_of_vec_reads_the_slice", "into_view_exact_fit", "slice_move_is_the_slice", "slice_copy_is_the_slice", "slice_move_int_min_overflows"], "note": "Views over any vec of the C01 machine; all signed bounds. The INT_MIN exception is stated as a theorem."},
{"property": "C08", "status": "proved", "theorems": ["range_edit_changes_exactly_the_range", "range_edits_stay_inside_the_range", "get_range_denotes_the_slice", "get_range_never_escapes", "range_append_del_refuted", "range_edit_clamps_its_arguments"], "note": "every range operation over the vec machine; exceptions named in the property are refuted in Coq"},
{"property": "C09", "status": "proved", "theorems": ["u64dec_prints_the_decimal", "i64dec_prints_the_decimal", "decimal_is_unique", "print_then_parse"], "note": "exact over all u64 / i64"},
{"property": "C10", "status": "proved", "theorems": ["lock_free_stack_is_atomic", "failed_exchange_means_progress", "push_assertions_hold", "pop_assertion_refuted", "aba_without_the_tag_refuted"], "note": "Trace inclusion in an atomic stack for any number of threads and any interleaving; memory accesses sequentially consistent."},
{"property": "C11", "status": "proved", "theorems": ["parallel_for_splits_exactly", "parallel_map_in_any_order"], "note": "All sizes, minimums and worker counts, on 64-bit words."},
{"property": "C12", "status": "proved", "theorems": ["parfor_is_a_barrier", "parfor_runs_no_batch_twice", "parfor_counters_outlive_their_users", "parfor_count_is_exact", "parfor_mutexes_exclude", "parfor_never_gets_stuck", "parfor_cannot_run_forever", "parfor_finishes", "parfor_leaves_nothing_behind"], "note": "SchedModel.v: nested parallel_for with any number of main and worker threads, interleaved at every shared access; push/try_pop atomic (C10), sequentially consistent memory, mutex+condition_variable build; single-batch calls run in place. Progress needs no spurious wake-ups and no successful worker notification."},
{"property": "C13", "status": "partial", "theorems": ["hash_map_is_a_finite_map_partial", "hash_map_is_a_finite_map_roomy_partial", "hash_map_small_is_a_finite_map", "hash_map_growing_a_roomy_index", "hash_map_growing_keeps_the_entries", "hash_map_is_a_finite_map_refuted"], "note": "Proved for every hash function and every history in which no completely full index of four or more slots has to grow (run_roomy), in particular for maps with fewer than four different hashes when a key is added. Growing an index with a free slot always ends, in order. Missing: full indexes, for which it is refuted (keys 5,13,6,7,9 with their own value as hash lose key 5)."},
{"property": "C14", "status": "partial", "theorems": ["hash_map_is_consistent_partial", "hash_map_is_consistent_roomy_partial", "hash_map_growing_a_roomy_index", "hash_map_is_consistent_refuted"], "note": "As C13: Verify passes after any history where no full index grows; refuted in general by the same history."},
{"property": "C15", "status": "partial", "theorems": ["hash_map_iteration_partial", "hash_map_iteration_roomy_partial", "hash_map_iteration_refuted"], "note": "As C13; refuted in general: a lost key set again after a removal is visited twice."},
{"property": "C16", "status": "proved", "theorems": ["add_inserts", "remove_deletes", "has_is_membership", "clear_empties", "union_and_difference", "negated_is_complement", "add_range_fills", "add_range_refuted", "has_inter_is_intersection", "has_missing_finds", "has_missing_refuted", "negative_indices_trap", "popcount_counts"], "note": "add_range and has_missing proved under the conditions in the amended statement; the general versions are refuted"},
{"property": "C17", "status": "proved", "theorems": ["built_is_canonical", "equal_iff_same_members", "empty_iff_no_members", "each_ascending"], "note": ""},
{"property": "C18", "status": "proved", "theorems": ["normalize_exactly", "normalize_keeps_the_location_partial", "normalize_keeps_the_location_refuted", "normalize_is_normal", "normalize_is_idempotent"], "note": "Where every string leads after normalize, exactly, for all strings below 2^31 bytes; the original unrestricted claim is refuted by example and proved on the stated domain."},
{"property": "C19", "status": "proved", "theorems": ["ext_splits_at_the_last_dot", "filename_is_the_last_component", "dirname_then_filename", "path_parts_refuted"], "note": "Exact description for every string; unrestricted losslessness refuted by example."},
{"property": "C20", "status": "proved", "theorems": ["relative_then_join", "relative_from_a_file", "join_puts_together"], "note": "For all directories a and paths b made of proper names, roots and trailing slashes included."},
{"property": "C21", "status": "proved", "theorems": ["decode_well_formed", "encode_is_standard", "encode_out_of_range", "encode_decode_roundtrip", "decode_encode_roundtrip", "decode_in_bounds", "decode_without_errors_is_sound", "decode_in_bounds_refuted", "decode_accepts_overlong"], "note": "decode_in_bounds is the claim minus the off-by-one case that decode_in_bounds_refuted exhibits"},
{"property": "C22", "status": "proved", "theorems": ["tea_rounds_bijective", "tea_hash_injective", "tea_hash_bytes_block_injective", "tea_hash_bytes_length_collision", "tea_digests_injective", "tea_digest_shape", "tea_u64_injective", "tea_non_zero_spec"], "note": "the hash of a byte string ignores its length (tea_hash_bytes_length_collision)"},
{"property": "C23", "status": "proved", "theorems": ["rand_step_bijective", "rand_full_period", "rand_draws_linearised"], "note": "Full period 2^64-1 by GF(2) matrix computation; any number of threads, any schedule."},
{"property": "C24", "status": "proved", "theorems": ["shuffle_is_permutation", "shuffle_is_uniform_in_values"], "note": ""},
{"property": "C25", "status": "proved", "theorems": ["ascii_case_maps", "ascii_trim_maximal"], "note": ""},
{"property": "C26", "status": "proved", "theorems": ["find_is_the_first_occurrence", "find_window_is_the_first_occurrence", "find_item_is_the_first", "has_starts_ends", "find_index_can_overflow"], "note": "All haystacks/needles over any type with decidable equality; reads proved in bounds."},
{"property": "C27", "status": "proved", "theorems": ["cmp_is_a_total_order", "eq_decides_equal_contents", "string_order_is_shortlex", "float_eq_disagrees_only_on_zeros_and_nans"], "note": "Every type built from primitives, arrays and structs; aliasing arrays included (the m_data shortcut)."},
{"property": "C28", "status": "proved", "theorems": ["split_cuts_at_every_separator", "split_each_flags", "join_concatenates", "replace_is_split_then_join"], "note": "Includes uniqueness of the leftmost cut and that join leaves no uninitialised cell."},
{"property": "C29", "status": "proved", "theorems": ["reverse_is_rev", "map_agrees_with_lists", "all_some_agree_with_lists", "partition_keeps_the_rest_in_order", "remove_filters", "resize_keeps_the_prefix", "steal_moves_the_window", "accessors_agree_with_lists"], "note": "Callbacks are pure functions of item and index."},
{"property": "C30", "status": "proved", "theorems": ["varint_roundtrip", "varint7_roundtrip", "varint_prefix_free", "varint7_prefix_free", "varint_alphabet", "varint_parse_in_bounds"], "note": ""},
{"property": "C31", "status": "proved", "theorems": ["parse10u32_reads_the_digits", "digits_at_exists", "parse10s32_reads_the_number", "parse10s32_refuted", "print_then_parse"], "note": "parse10s32_refuted: INT_MIN"},
{"property": "C32", "status": "proved", "theorems": ["lifetime_paths_round_trip", "lifetime_paths_are_accepted", "lifetime_paths_unambiguous", "lifetime_each_visits_the_regions"], "note": "Regions below 2^31 slots. The format is given separately (LifetimeSpec: num7, path_bytes, paths_bytes)."},
{"property": "C33", "status": "proved", "theorems": ["lifetime_union_is_union", "lifetime_union_is_total", "lifetime_union_idempotent", "lifetime_union_empty", "lifetime_union_commutes", "lifetime_union_associates", "lifetime_union_commutes_refuted", "lifetime_add_is_union"], "note": "Idempotence is byte for byte; commutativity and associativity hold for the places denoted (to the byte they fail: lifetime_union_commutes_refuted)."},
{"property": "C34", "status": "proved", "theorems": ["shift_left_rotates", "shift_right_rotates", "max_usage_is_the_first_slots", "region_usage_is_the_region", "struct_usage_places_the_field", "field_usage_reads_the_slots", "fields_round_trip", "fields_never_lost", "mask_region_is_the_hull", "mask_region_refuted"], "note": "mask_region_refuted: clz/ctz of an empty mask"},
{"property": "C35", "status": "proved", "theorems": ["flat_set_history", "flat_set_reports", "flat_set_bulk", "flat_map_history", "flat_countedset_history", "flat_countedset_reports"], "note": "Up to 2^30 keys (hi+lo in bfind is 32-bit)."},
{"property": "C36", "status": "proved", "theorems": ["levenshtein_is_edit_distance", "levenshtein_symmetric_and_separating"], "note": "All byte strings; spec is the least length of a script of single-character edits."},
{"property": "C37", "status": "proved", "theorems": ["lexer_never_traps", "lexer_tokens_are", "tokens_are_unique", "lexer_error_is_there", "lexer_covers_the_text", "lexer_positions", "lexer_operators_are_longest"], "note": "All of lex() in src/lexer.fu: any byte string gives exactly the tokens of an independent grammar (LexerSpec.v), or an error within the text at a place where nothing can be read. Not modelled: the text of error messages, 32-bit overflow of positions."},
{"property": "C38", "status": "proved", "theorems": ["every_text_reads_as", "literal_value_is_exact", "literal_widths_are_least", "literal_value_refuted"], "note": "literal_value_refuted: characters outside the lexer's alphabet"},
{"property": "C39", "status": "proved", "theorems": ["pool_history"], "note": "All histories, debug and release builds."},
{"property": "C40", "status": "proved", "theorems": ["ksfd_roundtrip", "ksfd_no_collision", "ksfd_rejects_wide_fd"], "note": ""},
{"property": "C41", "status": "partial", "theorems": ["http_parsing_is_total", "http_served_requests_are_genuine", "http_complete_request_is_served", "http_partial_head_refuted", "http_split_arrival_refuted", "http_pipelining_refuted", "http_response_states_its_length", "http_long_response_length_refuted", "http_response_headers_must_end_in_crlf", "http_output_is_sent_in_order", "http_output_drains", "http_fatal_response_is_a_complete_head"], "note": "the incomplete-not-fatal half of the claim is refuted of the code (http_partial_head_refuted); the rest is proved"},
{"property": "C42", "status": "proved", "theorems": ["testdiff_dedupes_stably"], "note": "For every sorting routine that sorts (std::sort is specified, not modelled)."},
{"property": "C43", "status": "proved", "theorems": ["closure_id_roundtrip", "closure_ids_are_distinct", "user_type_canon_roundtrip"], "note": "VarintProps.v over ClosureModel.v (usertypes.fu create/parse, hacks.fu serialize/tryParse). The struct packing/naming around the ids is not modelled."},
{"property": "C44", "status": "proved", "theorems": ["legacy_eq_decides", "legacy_eq_complete", "legacy_eq_bytes", "legacy_eq_refuted", "legacy_order_is_lexicographic", "legacy_order_total", "lmatch_is_occurrence", "rmatch_reads_past_the_end", "lfind_finds_the_first", "lfind_between_finds_the_first"], "note": "Any memory, any aliasing, any memcmp/memmem meeting the C contract. Exact decision procedure of operator==, plus the refutations."},
{"property": "C45", "status": "partial", "theorems": ["canon_subpatterns_are_visited", "canon_arguments_are_visited", "canon_without_patterns_has_none", "canon_writing_is_injective", "canon_acceptance_is", "canon_accepts_itself", "canon_nongeneric_accepted_by_itself_only", "canon_accepted_has_every_template", "canon_accepts_only_what_matches_partial", "canon_accepts_only_what_matches_refuted", "canon_accepts_all_that_matches_refuted", "canon_acceptance_is_transitive_partial", "canon_acceptance_is_transitive_refuted", "canon_acceptance_is_transitive_one_argument_refuted", "canon_super_accepts_both", "canon_super_is_found", "canon_intersection_is_accepted_by_both_partial", "canon_intersection_is_accepted_by_both_refuted", "canon_intersection_is_found_refuted"], "note": "Splitting into top-level parts is proved in full. 'Every argument accepts' is false of the code (one accepted argument is enough when both argument lists are deep: _refuted) and proved for patterns of one argument each; what is accepted in general is characterised exactly by canon_acceptance_is."},
{"property": "C46", "status": "partial", "theorems": ["type_assignability_is", "type_assignability_needs_facts", "type_assignable_to_itself", "type_assignability_is_transitive_partial", "type_assignability_is_transitive_generic_partial", "type_assignability_is_transitive_refuted", "relaxing_drops_what_is_not_wanted", "relaxed_type_accepts_the_original", "relaxed_type_still_fits_the_slot", "relaxing_again_drops_nothing", "forced_relaxing_accepts_the_original", "super_type_accepts_both", "super_type_of_the_empty_value", "super_type_ends", "super_type_ends_refuted", "intersection_type_goes_to_both_partial", "intersection_type_goes_to_both_refuted", "empty_value_type", "array_of_items", "slice_of_items", "relaxable_in_a_return_type"], "note": "Exact characterisation of assignability on well-formed canons; reflexive; transitive only for non-generic (or one-argument) canons and refuted in general (canon.fu compares generic arguments loosely); common supertype accepts both; intersection goes to both for canons with one pattern and argument, refuted in general; type_trySuper of zeroes and never never returns (refuted). Not covered: printing, speculateStruct."},
{"property": "C47", "status": "proved", "theorems": ["closure_id_roundtrip", "closure_ids_are_distinct"], "note": ""},
{"property": "C48", "status": "proved", "theorems": ["user_type_canon_roundtrip"], "note": ""},
{"property": "C49", "status": "proved", "theorems": ["swap_exchanges_the_ranges", "swap_exchanges_two_elements"], "note": "SwapModel.v: storage as lists; the two arrays are different (the compiler forbids aliased arguments here)."},
{"property": "C50", "status": "partial", "theorems": ["lifetime_inter_is_intersection_partial", "lifetime_inter_is_total_partial", "lifetime_inter_refuted"], "note": "The full statement is false of the code: Paths_inter does not clear its accumulator after adding a result, so consecutive overlapping pairs are lost (lifetime_inter_refuted). Proved for path lists in which no path meets two others (can_inter)."},
{"property": "C51", "status": "proved", "theorems": ["lifetime_no_intersection_is_safe", "lifetime_no_intersection_is_safe_refuted", "lifetime_intersection_without_masks", "lifetime_inter_locids"], "note": "Soundness under the hypothesis that a region with the same paths on both sides has paths that do not partially overlap; refuted without it."},
{"property": "C52", "status": "proved", "theorems": ["field_places", "deref_places", "descend_places", "descend_associates", "lifetime_field", "lifetime_field_is_total", "lifetime_deref", "lifetime_deref_is_total", "lifetime_join", "lifetime_join_places", "lifetime_join_is_total", "lifetime_shared", "lifetime_mask", "lifetime_shift_usage"], "note": "Masks: for a lifetime whose paths all refer to the same number of slots, and a mask with a slot in use."},
{"property": "C53", "status": "proved", "theorems": ["lifetime_of_a_variable", "lifetime_of_an_argument", "lifetime_has_a_variable", "lifetime_has_an_argument", "lifetime_has_temporary", "lifetime_has_static", "lifetime_has_static_refuted"], "note": "hasStatic may also say yes for a region number of two bytes or more (lifetime_has_static_refuted: the AAR lifetime of locid -33)."},
{"property": "C54", "status": "proved", "theorems": ["target_fields", "targets_are_distinct", "targets_are_distinct_refuted", "target_refuses_bad_numbers", "target_round_trip", "global_target_round_trip", "function_addresses_round_trip", "user_type_canon_round_trip", "user_type_canons_are_distinct", "serialized_type_round_trip"], "note": "Numbers below 2^20 (locals in [-2^19, 2^19)); beyond that packed targets collide (_refuted)."},
{"property": "C55", "status": "proved", "theorems": ["parsed_is_a_reading", "readings_are_parsed", "tidy_readings_are_parsed", "reading_is_unique", "parsing_ends", "more_fuel_same_result", "lexer_output_is_lexed", "misleading_whitespace_is_never_parsed", "call_of_an_index_loses_the_callee", "pipe_into_an_operator", "type_is_unary"], "note": "Blocks, lambdas, function and struct expressions, type parameters and :: chains are not modelled (outcome POther). Uniqueness: one of the readings is free of warned-about forms. misleading_whitespace_is_never_parsed: a warning which parsing never gets past; call_of_an_index_loses_the_callee: a[i](x) loses a and i."},
{"property": "C56", "status": "proved", "theorems": ["a_program_loads_iff_it_is_good", "errors_are_real", "solver_errors_are_real", "a_build_is_right", "rebuilds_are_right", "rebuilds_agree_with_a_clean_build", "parallel_is_sequential", "parallel_rebuild_is_sequential", "pruning_is_exact", "a_missing_file_blocks_every_rebuild", "a_rebuild_succeeds_where_a_clean_build_does_refuted", "a_deleted_unused_file_is_harmless_refuted", "a_nearer_file_is_noticed_refuted"], "note": "For every parser, resolution and solver which depends only on what it looks up.  Rebuilds: import patterns mean the same files throughout the history (false otherwise: a_nearer_file_is_noticed_refuted), and no file consists of one vertical tab (the cache's mark of a missing file).  A rebuild may fail with BUG where a clean build succeeds: a module which was once tried is never dropped (a_rebuild_succeeds_where_a_clean_build_does_refuted, a_missing_file_blocks_every_rebuild)."},
{"property": "C57", "status": "proved", "theorems": ["lookups_are_lexical", "a_union_hides_nothing_new", "a_union_hides_what_neither_sees", "a_union_shows_what_either_sees_refuted", "lookups_in_a_union_do_not_depend_on_earlier_lookups_refuted", "lookups_in_a_union_do_no_harm_refuted"], "note": "Histories without autocalls (EUnion).  With them lookups are not lexical any more: the cache bit makes a lookup in a union lose meanings, and a lookup in a union can make later ordinary lookups lose some (both refuted by concrete histories); the union also hides names the callee sees.  Only the items table is modelled; implicits, usings, converts and helpers are saved, hidden and restored by the same code."},
{"property": "C58", "status": "proved", "theorems": ["pushing_a_skip", "each_visits_what_is_visible", "reveach_goes_backwards", "an_item_is_what_it_was_made_of", "the_cache_bit_changes_nothing_else", "exports_are_the_modules_own", "qualified_lookups_go_in_order", "given_targets_go_in_order", "arguments_and_locals_are_found_again"], "note": "collect is modelled for one of the item lists (items, implicits and globals go through the same function)."},
{"property": "C59", "status": "proved", "theorems": ["vec_threads_read_their_own_values", "vec_threads_no_use_after_free", "vec_threads_freed_once", "vec_threads_no_leak", "vec_threads_referenced_blocks_live", "vec_threads_never_block"], "note": "Small-step model of any number of threads; the relaxed load of the counter may return any value coherence permits. Elements are plain data and a block's contents one value."},
{"property": "C60", "status": "partial", "theorems": ["vec_threads_not_shared_is_current", "vec_threads_no_race_on_blocks_with_acquire", "vec_threads_races_on_blocks_partial", "vec_threads_races_on_objects_partial", "vec_threads_relaxed_check_races", "vec_threads_copy_of_borrowed_races"], "note": "The code refutes the full claim, twice: unique() is a relaxed load, so a write in place may race with an earlier read through a copy dropped since (with an acquire load there is no race on blocks, proved); and copying a vec stores to its const source, so two borrowers race when one copies. The partial theorems prove these are the only races."},
{"property": "C61", "status": "proved", "theorems": ["file_write_never_more_than_a_prefix", "file_write_success_means_all_written", "file_write_leaks_no_descriptor", "file_write_of_nothing_is_success", "file_write_reports_every_failure"], "note": "The assumption that a write of something writes something is needed: file_write_of_nothing_is_success."},
{"property": "C62", "status": "partial", "theorems": ["file_read_keeps_the_rest", "file_read_success_means_the_contents_partial", "file_read_of_known_size_partial", "file_read_success_means_the_contents_refuted", "file_read_of_known_size_refuted", "file_read_reports_every_failure"], "note": "Proved for systems where one read gives all that is there; refuted otherwise: the loop never advances its buffer, so a second read overwrites the first, and success is reported. With a size given and no spare capacity a longer file is cut off silently."},
{"property": "C63", "status": "partial", "theorems": ["mkdir_p_makes_only_what_is_on_the_way", "mkdir_p_success_means_it_is_there", "mkdir_p_makes_the_directory_partial", "mkdir_p_reports_success_refuted", "mkdir_p_makes_the_directory_refuted"], "note": "Nothing else is made and success is truthful, whatever fails. Refuted: with two directories missing both are made but ENOENT is reported; with three or more the one asked for is not made. mkdir_p_makes_the_directory_partial says exactly what happens."},
{"property": "C64", "status": "proved", "theorems": ["atomic_write_all_or_nothing", "atomic_write_success_means_done", "atomic_write_alone", "atomic_write_leaks_no_descriptor", "tmpfile_names_differ", "tmpfile_names_stay_in_the_directory", "atomic_write_same_temporary_name", "atomic_write_reports_every_failure", "atomic_write_leaves_no_temporary_file"], "note": ""},
{"property": "C65", "status": "partial", "theorems": ["imports_find_the_nearest_file_partial", "imports_find_the_nearest_file_refuted", "the_order_of_imports_matters_refuted", "an_import_never_gives_a_file_of_another_name", "the_same_import_gives_the_same_file", "what_is_no_import_is_given_back"], "note": "The code refutes the full claim: the cache is keyed by directory and name run together, so lookups of the same path with different parts share an answer. Proved: the claim for every history without such a clash; and for every history that the answer exists and has one of the names, that the importing directory goes first, and that answers are stable."},
{"property": "C66", "status": "partial", "theorems": ["a_failed_spawn_leaves_no_descriptor", "a_spawn_leaves_one_end_of_each_pipe", "the_child_gets_its_streams_partial", "an_ignored_stream_is_dev_null_refuted", "the_parents_input_is_handed_on_refuted", "the_child_inherits_nothing_else", "one_child_has_nothing_of_another"], "note": "The code refutes two parts: an ignored stream is closed in the child instead of /dev/null (it is opened with O_CLOEXEC), and the parent's standard input is never handed on (descriptor 0 counts as none). Everything else is proved."},
{"property": "C67", "status": "partial", "theorems": ["what_is_collected_was_written", "all_output_is_collected_partial", "all_output_is_collected_refuted", "collecting_never_stalls_partial", "collecting_never_stalls_refuted", "collecting_ends", "the_status_is_the_childs_partial", "the_status_is_the_childs_refuted"], "note": "The code refutes the full claim: the loop stops as soon as neither stream gives data, so a child that closes one stream and goes on writing to the other loses output, or hangs with its parent; an interrupted waitpid counts as success. Proved: the claim for children that close last, and without failing calls; termination and the prefix property for all."},
{"property": "C68", "status": "partial", "theorems": ["bytes_arrive_in_order", "reading_is_woken", "unread_is_told_again", "writing_is_woken", "what_is_sent_is_read", "closed_after_everything_was_read", "closed_after_everything_was_said_partial", "closed_after_everything_was_said_refuted", "reading_later_loses_input_refuted", "close_waits_for_writes_refuted", "loop_sleeps_refuted"], "note": "Input and wake-ups are proved in full. The last sentence is proved for input, and for output for a program that tries to write at the end of every call; it is refuted for a program that writes only when told that it can (lib/ev/HTTP.fu), for one that reads later, and for one that closes with output left. Also refuted: the loop sleeps until something changes (a half-closed, slow peer makes it spin)."},
{"property": "C69", "status": "partial", "theorems": ["string_literal_survives", "char_literal_survives", "string_token_survives", "literal_type_holds_the_value", "literal_type_is_the_hint", "int_literal_survives_partial", "sign_is_applied", "int_literal_zero_underscore_refuted", "int_literal_as_float_refuted", "negative_literal_refuted", "literal_f64_is_exact_refuted"], "note": "Strings, characters and literal typing in full; integer text outside four exceptional shapes, each of which is refuted by a concrete literal. Not modelled: deduplication of string literals by digest, user-defined literal types, real literals."},
{"property": "C70", "status": "partial", "theorems": ["names_resolve_partial", "identifiers_are_valid", "local_names_are_valid", "identifiers_are_kept", "free_name_is_found", "identifiers_stay_different_refuted", "global_is_captured_refuted", "catch_variable_refuted", "helper_names_refuted"], "note": "Lookup is proved for every tree and every naming outside three shapes, each refuted by a concrete function. Not modelled: names of types, labels, struct fields, global definitions (DEF_ guards), pointer flips."},
{"property": "C71", "status": "partial", "theorems": ["C71_text_unambiguous", "C71_expression_text_means_the_expression_partial", "C71_condition_text_means_the_expression_partial", "C71_and_or_short_circuit", "C71_minus_of_minus_refuted", "C71_field_of_operator_refuted", "C71_narrow_condition_refuted"], "note": "Proved for all expressions of the modelled forms except three that are refuted: -(-x) is emitted as --x, a field of the program's own prefix operator binds to the operand, and arithmetic on 8 and 16 bit types directly in a condition is emitted without its wrap-around. Operands of binary operators and arguments are taken to be evaluated left to right; explicit sequencing (ooe_header), references and copies are not modelled."},
{"property": "C72", "status": "partial", "theorems": ["C72_order", "C72_order_right_to_left", "C72_numbering", "C72_resume", "C72_reverse", "C72_mask", "C72_call_partial", "C72_printing_refuted", "C72_by_value_refuted"], "note": "Traversal orders, the solver's mask and the code generator's use of temporaries: for arguments with sound footprints every order C++ may choose gives the outcome of fu's order, for any number of arguments. Missing, and refuted: arguments that print (nothing is sequenced for effects outside variables), and small variables passed by value (the temporary of f(i++, i) is dropped)."},
{"property": "C73", "status": "partial", "theorems": ["C73_one_reading", "C73_nesting_partial", "C73_substatement_partial", "C73_nested_loops_refuted", "C73_do_label_refuted", "C73_loop_label_refuted"], "note": "Text of statements, white space included, against a C++ statement grammar in which an else goes with the nearest if (shown to leave no choice). Left out, with refutations: a loop whose body is nothing but a loop (a stray semicolon before else, a label outside the enclosing loop), a do-loop left by name (missing semicolon); also an empty consequent before an else. Not modelled: block expressions, preheaders, defer, pragmas."},
{"property": "C74", "status": "partial", "theorems": ["C74_cpp_sound", "C74_cpp_complete", "C74_deterministic", "C74_order", "C74_cpp_order", "C74_trailing_partial", "C74_trailing_throw_refuted"], "note": "Proved of the generated C++ for every program and any number of exceptions in flight; the last sentence fails: an error out of a deferred statement at the end of a block does not end the program (C74_trailing_throw_refuted), and the rewriting is proved harmless only if the deferred statement always ends normally."},
{"property": "C75", "status": "proved", "theorems": ["C75_jumps", "C75_generated"], "note": "The generated C++ agrees with the source step by step for any number of steps, so both ways round; code is generated whenever jumps name something around them. Loops with something to be done on entry (on enter), values of blocks and expressions that contain jumps are not part of this claim."},
{"property": "C76", "status": "partial", "theorems": ["C76_on_enter_partial", "C76_once", "C76_bare_jump_refuted", "C76_own_label_refuted"], "note": "Proved both ways round for all programs whose on-enter part is not a bare jump or loop and is not left by its own name. A bare jump on entry to something other than the innermost loop around leaves only the loop (C76_bare_jump_refuted); leaving a named block on entry also leaves out the loop (C76_own_label_refuted)."},
{"property": "C77", "status": "partial", "theorems": ["C77_simplified_does_the_same_partial", "C77_no_jump_to_own_end", "C77_return_or_continue_refuted"], "note": "The second theorem is the full claim. Meaning is preserved for programs in which a jump inside the expression of another jump goes at least as far out as that one; without this it is false: in `while (..) return c ? x : continue;` the continue is dropped and the function returns an empty value. Types, discarding of unused values, defer and the rewriting of jumps with irrelevant values are not modelled."},
{"property": "C78", "status": "proved", "theorems": ["C78_nothing_is_lost", "C78_nothing_is_left", "C78_reading_ends", "C78_discarding", "C78_exec_has_the_whole_output", "C78_exec_failing_to_start"], "note": "The source is specified in DrainSpec.v. Nothing is left behind by a source that gives all it has up to what is asked for (sockets and pipes do; fread blocks until it can). Sizes are not limited to 31 bits; the contents after append_copy are taken from C01 and the capacity is arbitrary."},
{"property": "C79", "status": "proved", "theorems": ["C79_texels_survive", "C79_literals_have_their_value", "C79_codepoints_survive"], "note": "A u64 is an N; the shifts stay below 64 bits. make_mono_bounds, the measuring of metrics and the text around the literals are not modelled."},
{"property": "C80", "status": "proved", "theorems": ["C80_every_glyph_looks_the_same", "C80_each_visits_the_same_glyphs", "C80_twice_is_once", "C80_empty_font"], "note": "coordinates are unbounded integers, not i16"}
]}
