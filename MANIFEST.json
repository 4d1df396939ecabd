{
 "claims": [
  {
   "property": "C01",
   "status": "proved",
   "theorems": [
    "C01_simple8b_roundtrip",
    "C01_simple8b_roundtrip_trailing"
   ],
   "note": "encode then decode is the identity for all lists of values below 2^60"
  },
  {
   "property": "C02",
   "status": "proved",
   "theorems": [
    "C02_simple8b_buffers"
   ],
   "note": "number of words written and elements written past the end are bounded"
  },
  {
   "property": "C03",
   "status": "proved",
   "theorems": [
    "C03_round_trip",
    "C03_codebook_exists",
    "C03_empty_list_refuted",
    "C03_large_context_refuted"
   ],
   "note": "For every non-empty list with ascending contexts below 2^60, 64-bit ids and 16-bit scores and every codebook the code may choose: what is written is what is read back, at any file position and with anything behind it. Empty lists throw on reading and contexts from 2^60 on cannot be stored (refuted theorems)."
  },
  {
   "property": "C04",
   "status": "partial",
   "theorems": [
    "C04_intersect",
    "C04_intersect_keeps_old_refuted",
    "C04_two_lists",
    "C04_two_lists_distinct",
    "C04_two_words_scores_refuted",
    "C04_two_words_overrun_refuted",
    "C04_two_words_partial",
    "C04_kway_words",
    "C04_kway_entities",
    "C04_kway_one_list_refuted"
   ],
   "note": "Proved for all sorted lists: intersect, intersectTwoPostingLists and intersectKWay (k >= 2) return exactly the common contexts with the summed scores, for empty result vectors. Refuted: results left over from earlier calls when an input is empty, k = 1, and the two-word query of getContextListForWords, which passes the second score list twice."
  },
  {
   "property": "C05",
   "status": "proved",
   "theorems": [
    "C05_filter_by_range"
   ],
   "note": "filterByRange for all postings and ranges."
  },
  {
   "property": "C06",
   "status": "partial",
   "theorems": [
    "C06_one_variable",
    "C06_one_variable_filter",
    "C06_one_variable_set",
    "C06_several_variables",
    "C06_several_variables_filter",
    "C06_zero_contexts_refuted",
    "C06_count_wraps_refuted",
    "C06_filter_set_row_refuted",
    "C06_rows_partial",
    "C06_rows_sound",
    "C06_rows_complete",
    "C06_rows_lowest_refuted",
    "C06_rows_last_refuted"
   ],
   "note": "Proved for one or several variables, with and without a filter map or set, for every k > 0: per entity (tuple) the min(k, n) best contexts, best first, and the number of contexts modulo 2^16. Refuted: k = 0, 2^16 contexts, the row layout of the filter-set variant for several variables. Row-based variant (FTSAlgorithms.cpp:369-428): proved that every combination of entities but the greatest gets min(k, n) of its rows and the number n, that no row is invented and no combination lost; refuted that these are the best rows (they are the worst) and that the greatest combination gets the number."
  },
  {
   "property": "C07",
   "status": "partial",
   "theorems": [
    "C07_join_correct_partial",
    "C07_join_sorted",
    "C07_relational_join_rows",
    "C07_join_refuted",
    "C07_full_scan_right",
    "C07_full_scan_left"
   ],
   "note": "full relational join incl. order and sortedness for all inputs except a left table more than 1000 times larger than the right one whose keys start late; there the code is wrong (C07_join_refuted)"
  },
  {
   "property": "C08",
   "status": "partial",
   "theorems": [
    "C08_gallop_right",
    "C08_gallop_left_partial",
    "C08_gallop_left_refuted"
   ],
   "note": "right-larger galloping proved for all inputs; left-larger refuted (Join.cpp:650 initialises last with j) and proved under a counting condition"
  },
  {
   "property": "C09",
   "status": "proved",
   "theorems": [
    "C09_optional_join",
    "C09_left_outer_join_rows",
    "C09_outer_join",
    "C09_right_only_row",
    "C09_wide_tables_refuted"
   ],
   "note": "For inputs sorted on the join columns and at most 32 columns per table. With more columns the code shifts an int by its width (C09_wide_tables_refuted)."
  },
  {
   "property": "C10",
   "status": "proved",
   "theorems": [
    "C10_multi_column_join",
    "C10_multi_join_rows"
   ],
   "note": "For inputs sorted on the join columns and at most 32 columns in the right table."
  },
  {
   "property": "C11",
   "status": "proved",
   "theorems": [
    "C11_minus",
    "C11_minus_no_common_columns",
    "C11_agree"
   ],
   "note": ""
  },
  {
   "property": "C12",
   "status": "partial",
   "theorems": [
    "C12_union_rows",
    "C12_union_bindings",
    "C12_column_types_partial",
    "C12_column_types_refuted",
    "C12_hidden_column_refuted",
    "C12_no_columns_refuted"
   ],
   "note": "Rows and column mapping proved for all inputs where every left column carries a variable. Refuted: column types (Union.cpp:143 looks at the wrong side), inputs with unnamed columns, and unions without columns."
  },
  {
   "property": "C13",
   "status": "proved",
   "theorems": [
    "C13_distinct",
    "C13_planned_distinct",
    "C13_unsorted_refuted"
   ],
   "note": "For the plans the planner builds; DISTINCT on unsorted input is refuted."
  },
  {
   "property": "C14",
   "status": "partial",
   "theorems": [
    "C14_group_by_partial",
    "C14_planned_sorted",
    "C14_no_grouping_count_refuted",
    "C14_no_grouping_overrun_refuted",
    "C14_empty_input_refuted",
    "C14_avg_distinct_refuted",
    "C14_concat_distinct_refuted",
    "C14_max_infinity_refuted",
    "C14_first_type_refuted",
    "C14_column_types_partial",
    "C14_local_vocab_refuted",
    "C14_repeated_variable_refuted"
   ],
   "note": "Proved for queries with GROUP BY variables for COUNT, SUM, AVG, MIN, MAX, SAMPLE, FIRST, LAST, GROUP_CONCAT on exactly the rows of each group, in binary32 arithmetic. Refuted: no GROUP BY (one row too many, reads behind the input), empty input, AVG(DISTINCT), GROUP_CONCAT(DISTINCT) ending in a repeated value, MAX of -inf, type of FIRST/LAST, strings of inner GROUP_CONCATs, repeated grouping variables."
  },
  {
   "property": "C15",
   "status": "partial",
   "theorems": [
    "C15_filter_fixed_partial",
    "C15_filter_fixed_unsorted",
    "C15_filter_columns",
    "C15_float_binary_search_refuted",
    "C15_float_equality_refuted",
    "C15_float_uninitialised_refuted",
    "C15_filter_range",
    "C15_filter_range_inverse_partial",
    "C15_filter_range_inverse_refuted",
    "C15_filter_prefix",
    "C15_filter_word_partial",
    "C15_first_word_refuted",
    "C15_not_equal_refuted"
   ],
   "note": "Comparisons with fixed values and columns proved for integers, ids and non-negative floats; range filter, prefix filter, word comparison proved. Refuted: negative floats with binary search, float equality, != on sorted columns (Filter.cpp:292), words before the first vocabulary entry."
  },
  {
   "property": "C16",
   "status": "partial",
   "theorems": [
    "C16_path_partial",
    "C16_path_sound",
    "C16_search_ends",
    "C16_left_bound_partial",
    "C16_right_bound_partial",
    "C16_bounded_path_refuted",
    "C16_fixed_ends_refuted",
    "C16_min_zero_rejected",
    "C16_left_bound_refuted"
   ],
   "note": "Termination and soundness proved for all bounds; exactness for lower bound >= 1 and an upper bound that does not cut off the search. Refuted: small upper bounds, both ends fixed, bound tables whose adjacent rows share the path end."
  },
  {
   "property": "C17",
   "status": "partial",
   "theorems": [
    "C17_full_scan",
    "C17_free_subject",
    "C17_free_object",
    "C17_subquery_partial",
    "C17_subquery_unsorted_refuted",
    "C17_subquery_gap_refuted"
   ],
   "note": "fixed subject, fixed predicate and full scan exact; scan over a subquery exact only for sorted input without unknown gaps, refuted otherwise"
  },
  {
   "property": "C18",
   "status": "proved",
   "theorems": [
    "C18_counts",
    "C18_all_entities",
    "C18_single_entity",
    "C18_unsorted_refuted"
   ],
   "note": "input sorted by entity as the planner arranges; refuted for unsorted input"
  },
  {
   "property": "C19",
   "status": "proved",
   "theorems": [
    "C19_no_fault",
    "C19_limits",
    "C19_accounted_size",
    "C19_pinned_stay",
    "C19_pin",
    "C19_general_scores_refuted",
    "C19_size_wraps_refuted"
   ],
   "note": "For HeapBasedLRUCache, all histories with a clock that never goes backwards and total inserted size below 2^64 (C19_size_wraps_refuted shows why). The general FlexibleCache with scores that may return to an earlier value is refuted. erase() of an unpinned key is modelled as intended (the member does not compile)."
  },
  {
   "property": "C20",
   "status": "proved",
   "theorems": [
    "C20_lookup",
    "C20_duplicate",
    "C20_insert",
    "C20_kept"
   ],
   "note": "All histories of the heap-based LRU cache (same hypotheses as C19)."
  },
  {
   "property": "C21",
   "status": "proved",
   "theorems": [
    "C21_lru",
    "C21_oldest_first"
   ],
   "note": "Refinement of an abstract LRU machine plus a statement about last uses computed from the history; std::priority_queue::top is any minimal entry."
  },
  {
   "property": "C22",
   "status": "proved",
   "theorems": [
    "C22_single_computation",
    "C22_starts_only_if_missing",
    "C22_value",
    "C22_same_value",
    "C22_waiters_agree",
    "C22_waits_for_running",
    "C22_no_lost_waiter",
    "C22_no_deadlock",
    "C22_progress",
    "C22_everybody_answered",
    "C22_success_lost_refuted",
    "C22_self_request_refuted"
   ],
   "note": "Interleaving model of computeOnceImpl over the abstract LRU cache that C21_lru shows the code to implement. Deadlock freedom assumes that sub-results needed by a computation are for keys lower in some order (C22_self_request_refuted shows that this is needed)."
  },
  {
   "property": "C23",
   "status": "proved",
   "theorems": [
    "C23_waiters_error",
    "C23_thrower",
    "C23_clean",
    "C23_cached_is_good",
    "C23_recompute",
    "C23_pinned"
   ],
   "note": "Includes failing insertions (result too big to be pinned). See finding C22_success_lost_refuted."
  },
  {
   "property": "C24",
   "status": "partial",
   "theorems": [
    "C24_exclusive",
    "C24_accounted",
    "C24_never_exceeded",
    "C24_refused",
    "C24_num_free",
    "C24_all_returned",
    "C24_failed_allocation_leaks_refuted",
    "C24_wrapping_request_refuted"
   ],
   "note": "Proved for every interleaving of any number of threads (spin lock, reads and writes of the counter as separate steps): mutual exclusion, the accounting equation, the limit, refusal exactly when the request does not fit, numFreeBytes, and return of the whole limit if std::allocator never throws after the reservation. Not true without that condition (C24_failed_allocation_leaks_refuted), and a request above 2^64 bytes passes the check because n*sizeof(T) wraps (C24_wrapping_request_refuted)."
  },
  {
   "property": "C25",
   "status": "partial",
   "theorems": [
    "C25_no_triples",
    "C25_created",
    "C25_scan",
    "C25_scan2_partial",
    "C25_scan2_found_partial",
    "C25_statistics",
    "C25_unique",
    "C25_scan2_refuted",
    "C25_multiplicity_refuted"
   ],
   "note": "Proved for all six permutations, end to end through the files: C25_scan gives exactly the sorted matching pairs; C25_scan2_partial gives exactly the sorted third components except in one exactly characterised case (past_block: a relation with blocks and an absent key such that all left hand sides of the searched block are smaller), where the code dereferences the end of a vector (C25_scan2_refuted). C25_statistics: counts, functional flag and multiplicities; the distinct counter of the first relation of PSO, SPO and OSP is one too large (C25_multiplicity_refuted). stxxl::sort and std::sort are any functions returning a sorted permutation; file I/O is a byte list; timeouts and the log2 of the multiplicity (a parameter) are not modelled."
  },
  {
   "property": "C26",
   "status": "proved",
   "theorems": [
    "C26_round_trip",
    "C26_same_answers",
    "C26_new",
    "C26_add",
    "C26_statistics"
   ],
   "note": "Both storage variants; metadata built by add (C26_new, C26_add, C26_statistics) satisfies wf; appended to any file and read back gives the same relations, blocks, offsets and statistics. Sizes and offsets below 2^64; old format versions not modelled."
  },
  {
   "property": "C27",
   "status": "proved",
   "theorems": [
    "C27_setter",
    "C27_setters",
    "C27_constructor",
    "C27_word",
    "C27_injective",
    "C27_too_many_refuted"
   ],
   "note": "Bit-precise; any sequence of setters on any word. C27_too_many_refuted: counts of 2^40 and more are truncated."
  },
  {
   "property": "C28",
   "status": "partial",
   "theorems": [
    "C28_exact",
    "C28_limited_partial",
    "C28_most_frequent",
    "C28_size",
    "C28_scan",
    "C28_two_without_pattern_refuted",
    "C28_wrong_predicate_refuted",
    "C28_no_patterns_refuted",
    "C28_file",
    "C28_file_version"
   ],
   "note": "exact when the pattern limit is not reached (the deployed limit is 2^32-3), for entities with a stored pattern under any limit, and if at most one entity has none; refuted for two or more; file round trip included"
  },
  {
   "property": "C29",
   "status": "partial",
   "theorems": [
    "C29_newline_prefix_refuted",
    "C29_compress",
    "C29_longest",
    "C29_reloaded",
    "C29_reload_exists",
    "C29_push_back",
    "C29_text_vocabulary",
    "C29_text_empty_word_refuted"
   ],
   "note": "Compressing and expanding is the identity for all words and prefix lists, and a longest prefix is used; storing and loading keeps all words if no prefix contains a newline. Refuted: a prefix with a newline is written as two lines, which shifts the codes and changes words; an empty last word of the text vocabulary is lost."
  },
  {
   "property": "C30",
   "status": "partial",
   "theorems": [
    "C30_text_words_partial",
    "C30_text_word_refuted",
    "C30_external_file",
    "C30_external_text",
    "C30_present",
    "C30_found",
    "C30_absent_partial",
    "C30_front_refuted",
    "C30_word_of_id",
    "C30_inverse",
    "C30_not_on_disk_refuted"
   ],
   "note": "For sorted vocabularies getId and idToOptionalString are inverse for internal and external words and absent words are not found, given icu_ok. Refuted: an external word in front of all others for certain numbers of words makes the search leave the file; without on-disk literals, words that would be external are never found; text words that ICU considers identical."
  },
  {
   "property": "C31",
   "status": "partial",
   "theorems": [
    "C31_merge",
    "C31_merge_exists",
    "C31_sorted_partial",
    "C31_byte_order",
    "C31_vocabulary_order",
    "C31_external_refuted",
    "C31_empty_word_refuted",
    "C31_illegal",
    "C31_tied_refuted"
   ],
   "note": "Every merge of sorted partial vocabularies gives the sorted words, correct id maps and language range (C31_merge, C31_sorted_partial, for the order by bytes and of the vocabulary). Missing because false: an externalized word in several parts gets several ids (C31_external_refuted), the empty word gets no valid id, words identical for the locale may get two ids."
  },
  {
   "property": "C32",
   "status": "proved",
   "theorems": [
    "C32_first_pass",
    "C32_no_failure",
    "C32_round_trip",
    "C32_internal_words",
    "C32_representation",
    "C32_language_tag",
    "C32_language_refuted"
   ],
   "note": "For all inputs, parts, numbers of maps and batch sizes: stored ids translate back to the words (C32_first_pass, C32_round_trip), no check fails. Assumes ICU order as documented, words not identical for the locale, first byte at most 128. Value literals: see C36/C37. Finding: C32_language_refuted."
  },
  {
   "property": "C33",
   "status": "proved",
   "theorems": [
    "C33_escape",
    "C33_injective",
    "C33_unescape"
   ],
   "note": "all byte strings; also exactly which texts unescaping accepts"
  },
  {
   "property": "C34",
   "status": "proved",
   "theorems": [
    "C34_order",
    "C34_complete",
    "C34_pure",
    "C34_progress",
    "C34_terminates",
    "C34_continues",
    "C34_round",
    "C34_rounds",
    "C34_rounds_end",
    "C34_batch_size_zero_refuted",
    "C34_no_lines_refuted",
    "C34_called_again_refuted",
    "C34_exception_refuted",
    "C34_shared_state_refuted"
   ],
   "note": "Every execution of every pipeline (any creator, any number of stages, threads and elements, any schedule) delivers the transformed values in order and then ends; no deadlock, finitely many steps between calls; the rounds of the first pass of the index build take every triple once. Batch size 0, linesPerPartial 0, exceptions and shared stateful transformers are refuted."
  },
  {
   "property": "C35",
   "status": "proved",
   "theorems": [
    "C35_history",
    "C35_range",
    "C35_default",
    "C35_persist",
    "C35_buffered",
    "C35_uninitialized",
    "C35_back",
    "C35_invalid_file",
    "C35_push_own_refuted",
    "C35_large_elements_refuted",
    "C35_open_twice_refuted",
    "C35_moved_from_refuted",
    "C35_view_self_assign_refuted"
   ],
   "note": "Every history of push_back, element assignment, resize, clear, reserve and close/reopen on a memory-mapped vector (elements of at most half a page, sizes that fit 64 bits) succeeds and agrees with a list; persistence after close; BufferedVector for every threshold. Refuted outside of these: pushing an own element, elements of more than half a page, opening an open vector, moved-from vectors, self-assignment of a view."
  },
  {
   "property": "C36",
   "status": "partial",
   "theorems": [
    "C36_order",
    "C36_monotone",
    "C36_same_word",
    "C36_literal",
    "C36_plus",
    "C36_constant",
    "C36_read_back",
    "C36_read_back_integer",
    "C36_float",
    "C36_no_leading_digit_refuted",
    "C36_leading_zeros_refuted",
    "C36_zeros_refuted",
    "C36_zeros_undefined_refuted",
    "C36_many_digits_refuted",
    "C36_truncated_refuted",
    "C36_scientific_refuted",
    "C36_float_throws_refuted",
    "C36_log10_refuted",
    "C36_collation_refuted"
   ],
   "note": "The words of numbers of up to 30 digits, written without superfluous zeros before and with digits around the point, compare byte by byte as the numbers (C36_order; C36_monotone for any number of digits), whatever way of writing type and sign is used; they are read back as the same number, as text and (with log10 as an oracle) as mantissa and power of ten. Refuted for numbers without a digit before the point, with leading zeros, zeros such as 0.00, more than 30 digits, scientific notation, log10 of fifteen nines, and for the order of words under a collation that puts the hyphen before the plus sign (as ICU does). std::pow and the rounding to float are not modelled."
  },
  {
   "property": "C37",
   "status": "partial",
   "theorems": [
    "C37_order",
    "C37_literal",
    "C37_read_back",
    "C37_offset_refuted",
    "C37_day_offset_refuted",
    "C37_year_zero_refuted",
    "C37_year_type_refuted",
    "C37_long_year_refuted"
   ],
   "note": "Dates with years of up to 19 characters (18 digits for negative ones) compare byte by byte by year, month, day, hour, minute and second, also before year 0; what is shown for a word has the same word, except in year zero. Refuted for offsets (ignored), offsets after a day, year zero, longer years, and the type of years. Fractions of seconds are ignored by the code and by the specification."
  },
  {
   "property": "C38",
   "status": "partial",
   "theorems": [
    "C38_same_result",
    "C38_complete",
    "C38_cached",
    "C38_repeated",
    "C38_tree_lookup",
    "C38_filter_refuted",
    "C38_union_refuted",
    "C38_optional_refuted",
    "C38_minus_refuted",
    "C38_distinct_refuted",
    "C38_group_distinct_refuted",
    "C38_path_refuted",
    "C38_has_predicate_refuted",
    "C38_sort_refuted",
    "C38_regex_flag_refuted",
    "C38_values_refuted",
    "C38_newline_refuted"
   ],
   "note": "Proved for all operation trees: equal keys give equal results if the texts do not imitate the key punctuation and the parts of the operations that the keys leave out agree; unconditional for the kinds whose key shows everything; lifted to all histories of requests and evictions. The unrestricted property is false: twelve refutations with concrete colliding operations (filter variables, union columns, optional side, MINUS columns, DISTINCT columns, COUNT DISTINCT, path side column, has-predicate column, Sort/ORDER BY ties, regex flag, VALUES rows, line breaks in literals)."
  },
  {
   "property": "C39",
   "status": "proved",
   "theorems": [
    "C39_split",
    "C39_split_join",
    "C39_join",
    "C39_split_empty_refuted",
    "C39_split_whitespace",
    "C39_pieces_unique",
    "C39_split_whitespace_brackets",
    "C39_split_any",
    "C39_split_any_refuted",
    "C39_strip",
    "C39_lstrip",
    "C39_rstrip",
    "C39_normalize_spaces",
    "C39_starts_with",
    "C39_ends_with",
    "C39_common_prefix",
    "C39_closing_bracket"
   ],
   "note": "split/join, whitespace, brackets, any-of splitting, stripping, bracket matching; refuted for the single empty part and for separators above 127"
  },
  {
   "property": "C40",
   "status": "proved",
   "theorems": [
    "C40_build_get",
    "C40_too_much_data",
    "C40_write_load"
   ],
   "note": ""
  },
  {
   "property": "C41",
   "status": "partial",
   "theorems": [
    "C41_two_column_join_right",
    "C41_two_column_join_left",
    "C41_filter_is_join",
    "C41_first_column_only_refuted",
    "C41_duplicates_refuted"
   ],
   "note": "Proved for inputs sorted on both join columns. Refuted for inputs sorted on the first column only (which the planner accepts) and, as regards multiplicity, for relations with duplicates."
  },
  {
   "property": "C42",
   "status": "proved",
   "theorems": [
    "C42_index_created",
    "C42_sort_exists",
    "C42_metadata",
    "C42_word_block",
    "C42_entity_block",
    "C42_entity_exists",
    "C42_entity_overrun_refuted",
    "C42_spanning_blocks_refuted",
    "C42_first_entity_refuted",
    "C42_no_words_refuted"
   ],
   "note": "Blocks are found for every range of words within one block and every entity of the text; requires that the smallest entity is not the number of words (refuted otherwise), entities greater than all in the text overrun (refuted)."
  },
  {
   "property": "C43",
   "status": "partial",
   "theorems": [
    "C43_group_by_claim",
    "C43_has_predicate_full_scan",
    "C43_optional_join_sorted",
    "C43_multi_column_join_sorted",
    "C43_minus_sorted",
    "C43_sort_claim",
    "C43_order_by_claim_partial",
    "C43_order_by_all_ascending",
    "C43_order_by_descending_refuted",
    "C43_distinct_filter_claim",
    "C43_path_sorted",
    "C43_left_bound_sorted",
    "C43_right_bound_sorted",
    "C43_has_predicate_free_object"
   ],
   "note": "Proved for inner join (C07_join_sorted), optional join, multi-column join, minus, sort, distinct, filter, group by, property paths, ascending ORDER BY. Refuted for ORDER BY with a descending column before an ascending one."
  },
  {
   "property": "C44",
   "status": "proved",
   "theorems": [
    "C44_excerpt_general",
    "C44_excerpt",
    "C44_empty_document_refuted",
    "C44_last_document_refuted",
    "C44_unordered_refuted",
    "C44_negative_id_refuted"
   ],
   "note": "Every record of a document with a non-empty text gets this text (from the documents file to the excerpt). Documents without text get the text of the next document or hang, order of ids is not checked (refuted)."
  },
  {
   "property": "C45",
   "status": "proved",
   "theorems": [
    "C45_decode_encoded",
    "C45_encoding_exists",
    "C45_decode",
    "C45_plain"
   ],
   "note": "all encodings, and the result for malformed escapes"
  },
  {
   "property": "C46",
   "status": "partial",
   "theorems": [
    "C46_join_columns",
    "C46_merged_both",
    "C46_optional_columns",
    "C46_optional_matched",
    "C46_optional_unmatched",
    "C46_optional_right_only",
    "C46_join",
    "C46_join_scan_right",
    "C46_join_scan_left",
    "C46_two_column_join",
    "C46_two_column_join_left",
    "C46_bind",
    "C46_values",
    "C46_path_bound",
    "C46_multi_column_partial",
    "C46_multi_column_refuted",
    "C46_multi_column_hidden_refuted",
    "C46_path_same_variable_refuted"
   ],
   "note": "Join (incl. full scans), OptionalJoin, TwoColumnJoin, Bind, Values and bound transitive paths read every variable from the right column; MultiColumnJoin only if the hash map is iterated in column order and no left column lacks a variable (C46_multi_column_refuted, C46_multi_column_hidden_refuted); ?x p+ ?x is not filtered (C46_path_same_variable_refuted). IndexScan is covered by C83, the text operations by C76, HasPredicateScan by C84."
  },
  {
   "property": "C47",
   "status": "proved",
   "theorems": [
    "C47_operation",
    "C47_read",
    "C47_histories",
    "C47_new",
    "C47_succeeds",
    "C47_equal",
    "C47_push_own_row_refuted",
    "C47_reserve_wraps_refuted",
    "C47_moved_from_refuted",
    "C47_set_cols_refuted",
    "C47_equal_widths_refuted"
   ],
   "note": "Every operation and every history of legal operations refines the list of rows (IdTable_Model: flat vector, size, capacity, float growth factor with rounding, memcpy/memmove with bounds). Legal excludes what the code gets wrong, each shown by a refuted theorem: pushing a reference to an own row when the storage grows, products wrapping in size_t, moved-from tables, setCols on a table without columns that has rows, operator== on different widths."
  },
  {
   "property": "C48",
   "status": "partial",
   "theorems": [
    "C48_comparators",
    "C48_order_by",
    "C48_sort",
    "C48_float_order_refuted"
   ],
   "note": "Proved for columns ordered by id; columns of type FLOAT are ordered by their bits (refuted)."
  },
  {
   "property": "C49",
   "status": "partial",
   "theorems": [
    "C49_having_partial",
    "C49_having_last_refuted",
    "C49_only_last"
   ],
   "note": "Proved for at most one condition; with several conditions only the last one is applied (refuted)."
  },
  {
   "property": "C50",
   "status": "partial",
   "theorems": [
    "C50_search",
    "C50_contexts",
    "C50_unordered_lines_refuted",
    "C50_word_postings",
    "C50_absent_entity",
    "C50_entity_postings",
    "C50_no_entities_refuted",
    "C50_two_terms",
    "C50_many_terms",
    "C50_many_words",
    "C50_one_word",
    "C50_absent_entity_refuted",
    "C50_two_words_refuted"
   ],
   "note": "From the lines of the context file to the answers for one, two and more terms. Missing: the list of contexts for exactly two words (wrong, see C04_two_words_scores_refuted), entities not in the text (refuted) and blocks without entities (refuted: throws); vocabulary look-ups are not part of the model."
  },
  {
   "property": "C51",
   "status": "partial",
   "theorems": [
    "C51_literal_partial",
    "C51_numeric_at_end_refuted",
    "C51_short_literal_refuted",
    "C51_unescape_defined",
    "C51_iri_partial",
    "C51_prefixed_name",
    "C51_meaning_unique",
    "C51_literal_end"
   ],
   "note": "numeric escapes as the last characters are rejected by the code (C51_numeric_at_end_refuted); everything else proved; ICU and stream extraction modelled by their documentation"
  },
  {
   "property": "C52",
   "status": "partial",
   "theorems": [
    "C52_preorder",
    "C52_sortable",
    "C52_total_order",
    "C52_equal",
    "C52_levels",
    "C52_sort_keys",
    "C52_different_literals_refuted",
    "C52_simple_total_refuted",
    "C52_bounds",
    "C52_value_ids_partial",
    "C52_at_most_refuted",
    "C52_prefix_range_partial",
    "C52_prefix_empty",
    "C52_prefix_weightless_refuted",
    "C52_prefix_last_byte_refuted",
    "C52_text_prefix_partial"
   ],
   "note": "Preorder at every level, agreement of sort keys, refinement of levels, bounds in sorted vocabularies: for all words, given the documented behaviour of ICU (icu_ok). Partial: prefix ranges and value ids only under side conditions, and refuted: two stored literals with a backslash before the quote compare equal, at-most id, prefixes without weight, keys ending in 255."
  },
  {
   "property": "C53",
   "status": "proved",
   "theorems": [
    "C53_greedy",
    "C53_prefixes",
    "C53_complete",
    "C53_start_anywhere",
    "C53_other_order_refuted"
   ],
   "note": "For every vocabulary file in byte order: no failure, the result is the greedy choice by saved bytes among the common prefixes of neighbours, distinct, non-empty, at most the wanted number. Refuted for other orders (null pointer), which the code avoids by sorting."
  },
  {
   "property": "C54",
   "status": "partial",
   "theorems": [
    "C54_parses_partial",
    "C54_unambiguous",
    "C54_terminates",
    "C54_decimal_refuted",
    "C54_double_refuted",
    "C54_base_refuted",
    "C54_sparql_prefix_refuted",
    "C54_keyword_a_refuted",
    "C54_keyword_true_refuted",
    "C54_exponent_refuted",
    "C54_keyword_prefix_refuted",
    "C54_property_list_subject_refuted",
    "C54_comments_refuted",
    "C54_empty_prefix_refuted",
    "C54_two_dots_refuted",
    "C54_collection_refuted"
   ],
   "note": "Proved for the grammar of Turtle_Spec.v (directive @prefix, names with dots, all literals, integers, booleans, labels, nested property lists) and termination for all inputs. Not covered because the code gets it wrong (refutations): decimals, doubles, @base, SPARQL PREFIX, names that begin like keywords, property lists as subjects, several comments in a row, the empty prefix, collections."
  },
  {
   "property": "C55",
   "status": "partial",
   "theorems": [
    "C55_blocks_partial",
    "C55_terminates",
    "C55_order_refuted",
    "C55_redeclared_refuted",
    "C55_dotted_refuted",
    "C55_dotted_label_refuted",
    "C55_silent_loss_refuted"
   ],
   "note": "Proved up to order for documents without dots in names and without prefixes declared again with another meaning; both restrictions are necessary (refutations). The order of the triples is not kept (refutation)."
  },
  {
   "property": "C56",
   "status": "partial",
   "theorems": [
    "C56_mmap_only_first_refuted",
    "C56_mmap_endless_refuted"
   ],
   "note": "The claim is false: refuted in general, only the first statement is delivered; a file without statements is read forever."
  },
  {
   "property": "C57",
   "status": "partial",
   "theorems": [
    "C57_ntriples_partial",
    "C57_escaped_quote_refuted",
    "C57_open_literal_refuted",
    "C57_dot_refuted",
    "C57_comment_refuted"
   ],
   "note": "Proved for files of lines without escaped quotes inside literals; a literal with an escaped quote and a blank behind it is cut (refuted in general). Empty lines, comments and objects directly followed by the dot are rejected (refutations)."
  },
  {
   "property": "C58",
   "status": "proved",
   "theorems": [
    "C58_tsv",
    "C58_missing_fields_refuted"
   ],
   "note": "Proved for every file of lines with three tabs, and with two tabs in release builds."
  },
  {
   "property": "C59",
   "status": "proved",
   "theorems": [
    "C59_context_file",
    "C59_score_refuted",
    "C59_order_refuted"
   ],
   "note": "Proved for every file of well-formed lines; lower case is an oracle."
  },
  {
   "property": "C60",
   "status": "partial",
   "theorems": [
    "C60_parses_partial",
    "C60_accepts",
    "C60_terminates",
    "C60_variable",
    "C60_null_partial",
    "C60_count_refuted",
    "C60_delimiter_link_refuted",
    "C60_non_ascii_refuted",
    "C60_null_refuted"
   ],
   "note": "proved for all derivable texts whose counts stand in a run of delimiters beginning with a star, and for all accepted texts; refuted for counts behind a parenthesis, for non-ASCII links, for delimiters taken as links and for alternatives of which only some parts can be empty"
  },
  {
   "property": "C61",
   "status": "partial",
   "theorems": [
    "C61_pattern_partial",
    "C61_empty_rejected",
    "C61_text_partial",
    "C61_long_sequence_refuted",
    "C61_sequence_undefined_refuted",
    "C61_mixed_alternative_refuted"
   ],
   "note": "proved for all graphs, for paths whose alternatives are uniform and whose sequences have the parts that can be empty in one run; refuted for longer sequences and for mixed alternatives; multiplicities and execution not covered"
  },
  {
   "property": "C62",
   "status": "partial",
   "theorems": [
    "C62_tree_pattern",
    "C62_pattern_partial",
    "C62_nested_partial",
    "C62_two_column_refuted",
    "C62_sort_column_refuted",
    "C62_variable_predicate_refuted",
    "C62_foreign_filter_refuted"
   ],
   "note": "Proved for all patterns that share variables like a tree, and for all others if no join on two or more columns is sorted by wrong columns. Refuted in general: with a cycle answers are lost (C62_two_column_refuted)."
  },
  {
   "property": "C63",
   "status": "partial",
   "theorems": [
    "C63_terminates",
    "C63_defined_partial",
    "C63_connected_partial",
    "C63_shift_refuted",
    "C63_repeated_variable_refuted",
    "C63_disconnected_refuted",
    "C63_full_scan_refuted",
    "C63_full_scan_two_refuted"
   ],
   "note": "Termination; plan or exception below 64 triples; connected patterns without fully variable triples get a plan. Refuted for 64 triples, repeated variables, cross products and full scans."
  },
  {
   "property": "C64",
   "status": "partial",
   "theorems": [
    "C64_tokens",
    "C64_terminates",
    "C64_names_refuted",
    "C64_single_quotes_refuted",
    "C64_long_string_refuted",
    "C64_rejected_refuted",
    "C64_dollar_refuted",
    "C64_type_names_refuted",
    "C64_exponent_refuted"
   ],
   "note": "Every text made of the tokens in SLex_Spec.v is split into them, for all gaps and comments, and reading ends. Not covered because the code gets them wrong: strings in single or triple quotes, names beginning with a word of the language, dollar signs, numbers with exponents (refuted). Case folding is ASCII only."
  },
  {
   "property": "C65",
   "status": "partial",
   "theorems": [
    "C65_parses_partial",
    "C65_terminates",
    "C65_trailing_refuted",
    "C65_langmatches_refuted",
    "C65_prefix_refuted",
    "C65_rejected_refuted",
    "C65_decimal_refuted",
    "C65_limit_refuted"
   ],
   "note": "Every text of a large part of the SPARQL grammar is parsed to the query it stands for, and the parser always ends; refuted: a token after the end is ignored, langMatches, prefix(), negative LIMIT, several constructs rejected, undefined behaviour for a decimal object."
  },
  {
   "property": "C66",
   "status": "partial",
   "theorems": [
    "C66_regex_partial",
    "C66_only_partial",
    "C66_braces_refuted",
    "C66_escape_refuted"
   ],
   "note": "Both directions are proved except for braces (refuted) and other escape sequences (refuted: rejected)."
  },
  {
   "property": "C67",
   "status": "partial",
   "theorems": [
    "C67_literal_partial",
    "C67_quote_refuted",
    "C67_backslash_refuted",
    "C67_tag_refuted"
   ],
   "note": "Proved for literals without inner quotes, without a backslash at the end and with tags of letters; refuted for each of these."
  },
  {
   "property": "C68",
   "status": "partial",
   "theorems": [
    "C68_expand_partial",
    "C68_groups_refuted",
    "C68_having_refuted",
    "C68_colon_refuted",
    "C68_carets_refuted",
    "C68_backslash_refuted",
    "C68_undeclared_refuted"
   ],
   "note": "Missing: filters in OPTIONAL, MINUS and UNION groups and in HAVING (they are not expanded), literals with two carets, typed literals with colons or backslashes and a type that is a name, undeclared prefixes (refuted)."
  },
  {
   "property": "C69",
   "status": "partial",
   "theorems": [
    "C69_json",
    "C69_lines_partial",
    "C69_read_back",
    "C69_offset_refuted",
    "C69_cut_refuted",
    "C69_unbound_refuted",
    "C69_comma_refuted"
   ],
   "note": "JSON output is proved for all tables and limits; CSV/TSV except OFFSET without LIMIT, which is refuted (empty answer). Quoting in CSV and unbound VERBATIM values are refuted."
  },
  {
   "property": "C70",
   "status": "partial",
   "theorems": [
    "C70_request_partial",
    "C70_query",
    "C70_terminates",
    "C70_sent",
    "C70_sent_retries",
    "C70_sent_prefix",
    "C70_http_refuted",
    "C70_no_equals_refuted",
    "C70_crash_refuted",
    "C70_retry_refuted"
   ],
   "note": "Proved for all requests without the word HTTP in a parameter and all splits into packets; such requests are cut (refuted). Sending is proved when no call fails. A malformed request line ends the server (refuted)."
  },
  {
   "property": "C71",
   "status": "partial",
   "theorems": [
    "C71_rows",
    "C71_refused",
    "C71_values_partial",
    "C71_undef_refuted",
    "C71_unknown_refuted",
    "C71_number_refuted"
   ],
   "note": "The result is characterised for all clauses; it is the whole clause if no UNDEF and no unknown word is in it. Rows with UNDEF in a column with values, rows with unknown words, and numbers are dropped (refuted)."
  },
  {
   "property": "C72",
   "status": "partial",
   "theorems": [
    "C72_binary_partial",
    "C72_rename",
    "C72_number",
    "C72_word",
    "C72_rounding_refuted",
    "C72_unbound_refuted",
    "C72_negative_refuted"
   ],
   "note": "Renaming and constants are proved; arithmetic is proved for counts up to 2^24, floats and numbers of the index whose result fits into 24 bits. Greater results are rounded, unbound counts and negative constants become great numbers (refuted)."
  },
  {
   "property": "C73",
   "status": "partial",
   "theorems": [
    "C73_triples",
    "C73_group_partial",
    "C73_query_partial",
    "C73_optional_first_refuted",
    "C73_nested_filter_refuted",
    "C73_optional_filter_refuted",
    "C73_unbound_join_refuted",
    "C73_subquery_limit_refuted",
    "C73_subquery_projection_refuted"
   ],
   "note": "Proved by mutual induction for all groups and queries inside scope_group (variables shared between parts always bound, OPTIONAL connected to what precedes it, filters on variables of their group, no filtered group that is just a filtered group, subqueries that select all variables and have no LIMIT); outside of it six counterexamples are proved. fillDpTab is represented by what C62 proves; transitive paths, GROUP BY, ORDER BY and text inside groups are not covered."
  },
  {
   "property": "C74",
   "status": "partial",
   "theorems": [
    "C74_counts_partial",
    "C74_all_entities",
    "C74_entity",
    "C74_plain_count",
    "C74_multiplicity_refuted",
    "C74_values_refuted",
    "C74_minus_refuted",
    "C74_optional_refuted",
    "C74_two_filters_refuted",
    "C74_no_alias_refuted",
    "C74_unrelated_refuted"
   ],
   "note": "Proved for all queries the check accepts whose subjects are distinct in the solutions of the rest, with at most one filter on the predicate and no HAVING, under the scope conditions of C73; for the triple alone with variable or constant subject without restriction of the graph. Missing: repeated subjects, several filters, VALUES/MINUS with the predicate, OPTIONAL after the triple alone, no alias - refuted."
  },
  {
   "property": "C75",
   "status": "partial",
   "theorems": [
    "C75_query_partial",
    "C75_subquery_partial",
    "C75_some_result",
    "C75_nested_order_refuted",
    "C75_nested_distinct_refuted",
    "C75_two_conditions_refuted",
    "C75_distinct_score_refuted",
    "C75_count_nothing_refuted"
   ],
   "note": "Proved: the result is an answer (group, condition, distinct, order) for every permitted sort result, and its claimed order is true, so queries nest. Missing because the code is wrong there: several HAVING conditions, an ascending variable after a descending one in the ORDER BY of a subquery, aliases without GROUP BY, DISTINCT SCORE of something without score."
  },
  {
   "property": "C76",
   "status": "partial",
   "theorems": [
    "C76_text_filter_partial",
    "C76_some_result",
    "C76_text_sound",
    "C76_text_complete",
    "C76_duplicates_refuted",
    "C76_one_column_refuted",
    "C76_context_variable_refuted",
    "C76_no_entities_refuted"
   ],
   "note": "Proved for a filter of several columns, and for one column without duplicates and one entity variable, if the shared variable is an entity variable. For the other cases the code is wrong (refuted theorems)."
  },
  {
   "property": "C77",
   "status": "partial",
   "theorems": [
    "C77_known_empty",
    "C77_execution",
    "C77_scan_size",
    "C77_full_scan_size",
    "C77_unknown_prefix_refuted"
   ],
   "note": "An operation that is declared empty gives no rows, for all trees; execution with the shortcuts of the join and the cache gives the result without them; scan sizes are exact. Refuted: with a prefix no word begins with, the operation is known to be empty but computing it throws when there is another word."
  },
  {
   "property": "C78",
   "status": "partial",
   "theorems": [
    "C78_graph",
    "C78_collapse",
    "C78_edges_inside",
    "C78_text_answer",
    "C78_words_answer",
    "C78_no_words_refuted",
    "C78_two_spaces_refuted",
    "C78_constant_record_refuted",
    "C78_entity_word_refuted"
   ],
   "note": "Proved for text triples about a variable with a word in the clique, with entity variables, or without any if the words are not exactly two search terms; cliques without a word are refused and constants as text records are treated as variables (refuted theorems)."
  },
  {
   "property": "C79",
   "status": "partial",
   "theorems": [
    "C79_scan",
    "C79_scan_succeeds_partial",
    "C79_answers",
    "C79_answers_partial",
    "C79_absent_refuted"
   ],
   "note": "Proved for patterns that have the shape of a tree and every plan, and for other patterns if the plan has no join on several columns with wrongly sorted inputs; executions that read behind a block have no result in the model (refuted theorem: a two-key scan for an absent pair); no externalized entities, no word twice on disk."
  },
  {
   "property": "C80",
   "status": "partial",
   "theorems": [
    "C80_shared",
    "C80_limit",
    "C80_unlimited",
    "C80_calls",
    "C80_seconds_partial",
    "C80_seconds_refuted",
    "C80_other_query_refuted",
    "C80_stopwatch"
   ],
   "note": "A query without a limit is aborted if another query fails whose result it waits for (C80_other_query_refuted); limits of 2^63 microseconds and more are undefined behaviour (C80_seconds_refuted). Scans executed during planning do not look at the timer and are outside of the model."
  },
  {
   "property": "C81",
   "status": "partial",
   "theorems": [
    "C81_names",
    "C81_operations",
    "C81_call",
    "C81_times",
    "C81_nonnegative",
    "C81_names_bad",
    "C81_names_refuted",
    "C81_original_time_refuted",
    "C81_details_refuted",
    "C81_again_refuted",
    "C81_waited_refuted"
   ],
   "note": "Two kinds of operations give one column no variable: VALUES with a repeated variable and a path from a variable to itself (C81_names_refuted). The details noted by operations are lost (C81_details_refuted), the original times are wrong (C81_original_time_refuted), a second computation by the same operation doubles the children (C81_again_refuted), and waiting for another thread gives negative times (C81_waited_refuted)."
  },
  {
   "property": "C82",
   "status": "partial",
   "theorems": [
    "C82_responds",
    "C82_responds_partial",
    "C82_constant_on_disk_refuted",
    "C82_language_refuted",
    "C82_export_partial",
    "C82_export_refuted"
   ],
   "note": "Basic graph patterns with FILTER conditions that compare a variable with a variable or a constant, DISTINCT, ORDER BY, LIMIT and OFFSET, as Json, CSV and TSV. Constants are compared without their language and never equal a word on disk (C82_language_refuted, C82_constant_on_disk_refuted); != with constants is excluded (C15_not_equal_refuted), as are <= and > with constants that are lower than all words (C15_first_word_refuted); exports with OFFSET and without LIMIT are empty (C82_export_refuted). Grouping, HAVING and other filters are not covered. For patterns that are not tree-shaped the plan must have no join on two columns with inputs sorted by others (C62_two_column_refuted)."
  },
  {
   "property": "C83",
   "status": "partial",
   "theorems": [
    "C83_planner",
    "C83_faithful",
    "C83_columns",
    "C83_full_columns_refuted",
    "C83_scan"
   ],
   "note": "Proved: the scans that the planner makes are those of the planner's model; width, types, sorting and rows of the results; the columns of the operation are those that the planner sets. The last claim is refuted for scans of the full index, which are made without subject, predicate and object."
  },
  {
   "property": "C84",
   "status": "partial",
   "theorems": [
    "C84_scan",
    "C84_scan_succeeds",
    "C84_subquery_partial",
    "C84_replace",
    "C84_unknown_refuted",
    "C84_same_variable_refuted",
    "C84_subquery_gap_refuted"
   ],
   "note": "Proved: width, types, sorting and rows of the scans with different variables; success if the constants are words of the input; the scan that replaces a join, if all entities of the input have predicates. Refuted: unknown constants and equal variables throw, and rows behind an entity without predicates are lost (C84_unknown_refuted, C84_same_variable_refuted, C84_subquery_gap_refuted)."
  },
  {
   "property": "C85",
   "status": "partial",
   "theorems": [
    "C85_copied",
    "C85_sparse",
    "C85_dense_partial",
    "C85_to_hash_map",
    "C85_configuration",
    "C85_out_of_range_refuted",
    "C85_statistics_refuted",
    "C85_current_dense_refuted",
    "C85_old_dense_refuted",
    "C85_dense_to_sparse_refuted",
    "C85_configuration_refuted",
    "C85_uncompressed_refuted"
   ],
   "note": "Proved: the bytes of the relations are copied; sparse permutations of all formats are rewritten with the same answers and statistics; as dense permutations they give the same answers for ids up to the largest one with a relation; dense metadata as a hash map. Refuted: larger ids read outside of the vector, two statistics are lost, dense permutations are read without their vectors (undefined for the current version, blocks or all relations lost otherwise), written configurations cannot be read, and indices without compression fail (C85_out_of_range_refuted, C85_statistics_refuted, C85_current_dense_refuted, C85_old_dense_refuted, C85_dense_to_sparse_refuted, C85_configuration_refuted, C85_uncompressed_refuted)."
  },
  {
   "property": "C86",
   "status": "partial",
   "theorems": [
    "C86_one_key_partial",
    "C86_two_keys_partial",
    "C86_numbers",
    "C86_full",
    "C86_full_multiplicities",
    "C86_text_refuted",
    "C86_average_refuted"
   ],
   "note": "numbers of triples, subjects, predicates and objects, estimates of full scans and of scans with one or two constants proved equal to those of the facts of the input, for scans that succeed; missing: constants that are empty, scans with undefined behaviour (C79); refuted: text predicate, multiplicities are rounded down"
  },
  {
   "property": "C87",
   "status": "partial",
   "theorems": [
    "C87_cross_product_partial",
    "C87_rows",
    "C87_count",
    "C87_two_sets",
    "C87_wraps_refuted"
   ],
   "note": "proved for fewer than 2^64 choices of matching rows; refuted beyond: the number of rows wraps"
  },
  {
   "property": "C88",
   "status": "proved",
   "theorems": [
    "C88_read",
    "C88_wrong_line",
    "C88_defined",
    "C88_defaults"
   ],
   "note": "for any atof; the keys used by the operations are listed in the model"
  }
 ]
}