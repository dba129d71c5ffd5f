{
 "claims": [
  {
   "property": "C01",
   "status": "proved",
   "theorems": [
    "C01_heap_is_priority_queue",
    "C01_heap_sorts"
   ],
   "note": "All histories of the public interface."
  },
  {
   "property": "C02",
   "status": "proved",
   "theorems": [
    "C02_heap_dedup_is_priority_queue",
    "C02_heap_conserves",
    "C02_dedup_duty_needed_refuted"
   ],
   "note": "deduplicate must return an entry equivalent to its first argument; a witness shows the duty is needed."
  },
  {
   "property": "C03",
   "status": "proved",
   "theorems": [
    "C03_heap_always_valid"
   ],
   "note": ""
  },
  {
   "property": "C11",
   "status": "proved",
   "theorems": [
    "C11_node_arithmetic",
    "C11_power_of_two_needed_refuted"
   ],
   "note": ""
  },
  {
   "property": "C12",
   "status": "partial",
   "theorems": [
    "C12_comtree_is_a_sequence",
    "C12_comtree_swap",
    "C12_move_keeps_entries_refuted",
    "C12_move_always_loses",
    "C12_push_own_entry_refuted"
   ],
   "note": "Proved for pushBack, popBack, growth, copy, clear and swap. The move part is false of the code (refuted). Pushing a reference to an own entry is undefined when the tree is full (refuted)."
  },
  {
   "property": "C04",
   "status": "proved",
   "theorems": [
    "C04_tourtree_is_priority_queue",
    "C04_tourtree_sorts"
   ],
   "note": "All histories of the public interface (TourTree has no size())."
  },
  {
   "property": "C05",
   "status": "proved",
   "theorems": [
    "C05_tourtree_always_valid",
    "C05_tourtree_push_never_relocates"
   ],
   "note": "isValid() is modelled as compiled with MATHIC_DEBUG."
  },
  {
   "property": "C09",
   "status": "proved",
   "theorems": [
    "C09_stlset_is_priority_queue",
    "C09_stlset_first_come_first_served",
    "C09_stlset_sorts"
   ],
   "note": "std::multiset is modelled as the sequence of its elements with insertion at the upper bound."
  },
  {
   "property": "C13",
   "status": "proved",
   "theorems": [
    "C13_triangle_remembers_last_write"
   ],
   "note": "getMemoryUse is not modelled."
  },
  {
   "property": "C14",
   "status": "proved",
   "theorems": [
    "C14_pairqueue_refines_spec",
    "C14_pairqueue_progress",
    "C14_pairs_conserved",
    "C14_columns_nonempty"
   ],
   "note": "Order, exactly-once delivery, progress and termination for every legal history; the caller must hand in rows below the column index in weakly descending order. The MATHIC_DEBUG block, name() and getMemoryUse() are not modelled."
  },
  {
   "property": "C15",
   "status": "proved",
   "theorems": [
    "C15_top_never_retired",
    "C15_retired_stays_retired",
    "C14_pairs_conserved",
    "C14_pairqueue_refines_spec"
   ],
   "note": ""
  },
  {
   "property": "C16",
   "status": "proved",
   "theorems": [
    "C16_rows_stored_without_loss",
    "C16_row_below_column_needed_refuted",
    "C16_too_many_columns_throws"
   ],
   "note": "A thrown call carries no state in the model; the throw is the first statement of addColumnDescending."
  },
  {
   "property": "C49",
   "status": "partial",
   "theorems": [
    "C49_pairdata_lifetimes",
    "C49_destructor_destructs_all",
    "C49_no_pairdata_for_retired",
    "C49_destruct_row_refuted"
   ],
   "note": "Lifetimes and the promise about retired indexes are proved. The clause that destructPairData is told the pair whose data is held is false of the code (refuted). Exceptions are the subject of C52."
  },
  {
   "property": "C06",
   "status": "proved",
   "theorems": [
    "C06_geobucket_is_priority_queue",
    "C06_geobucket_sorts",
    "C06_geobucket_always_valid",
    "C06_insert_factor_needed_refuted",
    "C06_nonempty_range_needed_refuted",
    "C06_sorted_range_needed_refuted"
   ],
   "note": "All configurations with geoBase >= 2, minBucketSize >= 1, insertFactor >= 1 and all histories with non-empty non-increasing ranges; witnesses show that each condition is needed. The memory layout of the bucket areas, exceptions and overflow of size_t are not modelled."
  },
  {
   "property": "C07",
   "status": "proved",
   "theorems": [
    "C07_geobucket_dedup_is_priority_queue",
    "C07_geobucket_conserves"
   ],
   "note": "deduplicate must return an entry equivalent to its first argument and entries that compare equal must be equivalent."
  },
  {
   "property": "C08",
   "status": "partial",
   "theorems": [
    "C08_cleared_geobucket_is_priority_queue",
    "C08_cleared_tracking_geobucket_refuted",
    "C08_cleared_tracking_geobucket_undefined_refuted"
   ],
   "note": "Proved for trackFront = false. For trackFront = true it is false of the code (refuted: wrong maximum, undefined behaviour, failing isValid)."
  },
  {
   "property": "C10",
   "status": "proved",
   "theorems": [
    "C10_queues_agree",
    "C10_queues_agree_up_to_equivalence",
    "C10_geobuckets_agree",
    "C10_linear_order_needed_refuted"
   ],
   "note": "Proved also for all strict weak orders up to equivalence of entries. A history that breaks the rules does so at the same call in all queues."
  },
  {
   "property": "C17",
   "status": "proved",
   "theorems": [
    "C17_hashtable_is_map",
    "C17_keys_distinct",
    "C17_lookup_finds_first_insert",
    "C17_hash_must_respect_equality_refuted",
    "C17_usable_after_reset_refuted",
    "C17_bin_count_refuted"
   ],
   "note": "All histories of insert, lookup, key, value and assignment to a value; the hash function must respect keysEqual (witness that this is needed). reset() is refuted: it leaves dangling pointers. remove() and hardReset() do not compile or link and are not modelled. mBinCount is refuted as the number of used bins."
  },
  {
   "property": "C18",
   "status": "proved",
   "theorems": [
    "C18_growing_changes_no_answer",
    "C18_grows_exactly_when_full",
    "C18_load_bounded",
    "C18_load_bounded_small_refuted"
   ],
   "note": "All sizes and contents. The load bound needs at least 4 bins initially (witness)."
  },
  {
   "property": "C19",
   "status": "proved",
   "theorems": [
    "C19_mask_never_rules_out_a_divisor",
    "C19_mask_meaning"
   ],
   "note": "All monomials, variable counts, exponent types (unbounded, signed with undefined overflow, unsigned with wrap-around) and all bit lists rebuild or rebuildDefault can produce for any sorting function; the exact meaning of a mask comparison is also proved."
  },
  {
   "property": "C20",
   "status": "proved",
   "theorems": [
    "C20_exactly_32_bits",
    "C20_better_split_more_bits",
    "C20_thresholds_cut_range",
    "C20_default_thresholds",
    "C20_bits_differ",
    "C20_default_defined",
    "C20_default_one_variable_refuted",
    "C20_rebuild_defined",
    "C20_rebuild_large_exponent_refuted"
   ],
   "note": "Also that the shares are fair, that better splitting variables get no fewer bits and that no two bits mean the same. Definedness: the constructor overflows for one variable with int exponents, rebuild overflows for exponents near the limits (refuted)."
  },
  {
   "property": "C21",
   "status": "proved",
   "theorems": [
    "C21_extender_divides_plainly",
    "C21_recalculated_divides_plainly",
    "C21_mixed_calculators_refuted"
   ],
   "note": "With masks on and off; masks of different calculators must not be mixed (witness)."
  },
  {
   "property": "C22",
   "status": "proved",
   "theorems": [
    "C22_combined_mask_is_lower_bound",
    "C22_combined_mask_is_greatest",
    "C22_max_mask",
    "C22_no_divisor_is_skipped",
    "C22_masks_have_32_bits"
   ],
   "note": "The combined mask is exactly the conjunction."
  },
  {
   "property": "C23",
   "status": "proved",
   "theorems": [
    "C23_unsorted_divlist_correct"
   ],
   "note": "Vector or linked list, masks on or off, any callbacks, any rebuild schedule, any history of valid entries including insert of ranges. An entry is valid if the divmask calculator does not overflow on it."
  },
  {
   "property": "C24",
   "status": "partial",
   "theorems": [
    "C24_sorted_divlist_correct",
    "C24_any_total_order_refuted"
   ],
   "note": "Proved for every strict weak order in which no entry precedes its divisors. For an arbitrary total order, which is all the documentation asks for, it is false of the code (refuted)."
  },
  {
   "property": "C25",
   "status": "proved",
   "theorems": [
    "C25_divlist_enumerations",
    "C23_unsorted_divlist_correct",
    "C24_sorted_divlist_correct"
   ],
   "note": ""
  },
  {
   "property": "C26",
   "status": "proved",
   "theorems": [
    "C26_divlist_remove_multiples",
    "C23_unsorted_divlist_correct",
    "C24_sorted_divlist_correct"
   ],
   "note": ""
  },
  {
   "property": "C27",
   "status": "partial",
   "theorems": [
    "C27_move_to_front_invisible",
    "C27_with_sort_on_insert_refuted"
   ],
   "note": "Proved without sortOnInsert. With sortOnInsert it is false of the code (refuted: undefined behaviour for vectors, wrong answers for linked lists)."
  },
  {
   "property": "C28",
   "status": "proved",
   "theorems": [
    "C28_binary_tree_exact"
   ],
   "note": "All histories of insert, removeMultiples, queries and rebuild, all options, any leaf size >= 1. Leaves, nodes and tree shape are modelled; arena memory and pointers are not. Entries must be valid (no overflow of exponent arithmetic), at most LeafSize of them equal."
  },
  {
   "property": "C29",
   "status": "proved",
   "theorems": [
    "C29_packed_tree_exact"
   ],
   "note": "As C28. The model keeps the children of a node as a tree rather than as the linked list of packed nodes."
  },
  {
   "property": "C30",
   "status": "proved",
   "theorems": [
    "C30_kd_remove_multiples",
    "C28_binary_tree_exact",
    "C29_packed_tree_exact"
   ],
   "note": ""
  },
  {
   "property": "C31",
   "status": "proved",
   "theorems": [
    "C31_rebuild_keeps_contents",
    "C31_rebuilds_invisible",
    "C28_binary_tree_exact",
    "C29_packed_tree_exact"
   ],
   "note": "Also that no option but the leaf size, no rebuild schedule and no choice of the tree is observable."
  },
  {
   "property": "C32",
   "status": "proved",
   "theorems": [
    "C32_cache_exact",
    "C32_cache_invisible"
   ],
   "note": "For histories without removeElement; with it see C33."
  },
  {
   "property": "C33",
   "status": "partial",
   "theorems": [
    "C33_remove_element_partial",
    "C33_remove_element_refuted"
   ],
   "note": "Proved for the packed tree without divisor cache and without size(). The clauses about size() and the cache are false of the code (refuted). removeElement of the binary tree does not compile."
  },
  {
   "property": "C34",
   "status": "proved",
   "theorems": [
    "C34_divlist_minimal",
    "C34_kd_minimal"
   ],
   "note": "The clients divsim/DivListModel.h and divsim/KDTreeModel.h over all configurations of DivList and both KD trees; divisibility must be a preorder that depends on exponents only."
  },
  {
   "property": "C35",
   "status": "proved",
   "theorems": [
    "C35_insert_adds_or_throws"
   ],
   "note": "Also exactly when it throws, and that the tree is unchanged and usable afterwards. With MATHIC_DEBUG an assertion fails before the exception."
  },
  {
   "property": "C36",
   "status": "proved",
   "theorems": [
    "C36_finders_agree",
    "C36_finder_replaces"
   ],
   "note": ""
  },
  {
   "property": "C48",
   "status": "proved",
   "theorems": [
    "C48_divlist_schedule",
    "C48_divlist_insertions",
    "C48_divlist_manual",
    "C48_kd_schedule",
    "C48_kd_insertions",
    "C48_kd_manual"
   ],
   "note": "Histories of KD trees without removeElement, which is not reported. An explicit rebuild counts as one, a range inserted into an empty list triggers one."
  },
  {
   "property": "C37",
   "status": "proved",
   "theorems": [
    "C37_create",
    "C37_register",
    "C37_names_with_prefix",
    "C37_null_refuted"
   ],
   "note": "For functions that make a product, as nameFactoryRegister registers. Functions that return null are refuted: duplicates go unnoticed and create reports the registered name as unknown."
  },
  {
   "property": "C38",
   "status": "proved",
   "theorems": [
    "C38_unique_name",
    "C38_errors",
    "C38_exact",
    "C38_create_with_prefix"
   ],
   "note": "Messages included, byte for byte."
  },
  {
   "property": "C39",
   "status": "proved",
   "theorems": [
    "C39_parse",
    "C39_errors_reported",
    "C39_first_fault",
    "C39_duplicate_options_refuted"
   ],
   "note": "The grammar, the values after parsing and the message about the first fault. Actions are modelled as parameters and a verdict about direct parameters. Names of options need not be distinct (caveat shown by a witness)."
  },
  {
   "property": "C40",
   "status": "partial",
   "theorems": [
    "C40_integer_partial",
    "C40_range_refuted",
    "C40_rejected_argument_refuted"
   ],
   "note": "Proved for the range up to 2^32-1. The range in the error message, up to 2^31-1, is wrong of the code (refuted). Classic locale and 32-bit unsigned int."
  },
  {
   "property": "C41",
   "status": "proved",
   "theorems": [
    "C41_bool",
    "C41_round_trip"
   ],
   "note": ""
  },
  {
   "property": "C42",
   "status": "proved",
   "theorems": [
    "C42_columns_exist",
    "C42_prints_table",
    "C42_aligned",
    "C42_write",
    "C42_repeat_to_end_of_line",
    "C42_file",
    "C42_file_refuted"
   ],
   "note": "Positions of rows and cells in the output, widths, and what is written into columns. The FILE overload stops at a null character (refuted)."
  },
  {
   "property": "C43",
   "status": "proved",
   "theorems": [
    "C43_commafy",
    "C43_commafy_injective"
   ],
   "note": ""
  },
  {
   "property": "C46",
   "status": "proved",
   "theorems": [
    "C46_wraps",
    "C46_words",
    "C46_lines",
    "C46_short_lines",
    "C46_labels",
    "C46_conditions_refuted",
    "C46_overlong_word_refuted"
   ],
   "note": "For 7-bit messages without null characters (witnesses that both are needed). A word that fits into no line is preceded by a line without words if there is a prefix or an indentation, which contradicts a comment in the code (refuted)."
  },
  {
   "property": "C44",
   "status": "proved",
   "theorems": [
    "C44_ratio",
    "C44_ratio_all",
    "C44_ratio_large_refuted",
    "C44_ratio_defined_refuted",
    "C44_zero",
    "C44_zero_double",
    "C44_ratio_double",
    "C44_percent",
    "C44_percent_wraps_refuted",
    "C44_percent_fixed",
    "C44_negative_refuted",
    "C44_header_example_refuted"
   ],
   "note": "Correct rounding below 2^46 (a witness above), an error bound for all 64-bit inputs. The multiplication by 100 wraps around, large quotients and negative numbers are undefined behaviour, the header file's example is wrong (all refuted). Doubles are IEEE 754 binary64 (SpecFloat), evaluated without excess precision."
  },
  {
   "property": "C45",
   "status": "partial",
   "theorems": [
    "C45_si_prefix",
    "C45_si_prefix_refuted",
    "C45_bytes",
    "C45_bytes_refuted"
   ],
   "note": "Proved below 999.95T and 1023.95TB. From there on the table is read past its end (refuted for every such input)."
  },
  {
   "property": "C47",
   "status": "proved",
   "theorems": [
    "C47_stream",
    "C47_file",
    "C47_unambiguous",
    "C47_nearest",
    "C47_monotone",
    "C47_half_up_refuted",
    "C47_clock_back_refuted"
   ],
   "note": "Nearest for clock differences up to 2^50. Halves are not always rounded up, and a negative clock difference is undefined behaviour (refuted)."
  },
  {
   "property": "C50",
   "status": "proved",
   "theorems": [
    "C50_counting_changes_nothing",
    "C50_push_comparisons",
    "C50_pop_comparisons",
    "C50_history_comparisons"
   ],
   "note": "The counted model makes every comparison through one function and is shown to be the model of C01-C03 with a counter."
  },
  {
   "property": "C51",
   "status": "proved",
   "theorems": [
    "C51_counting_changes_nothing",
    "C51_call_comparisons",
    "C51_history_comparisons"
   ],
   "note": "As C50."
  },
  {
   "property": "C52",
   "status": "partial",
   "theorems": [
    "C52_no_exception_no_change",
    "C52_add_strong_guarantee",
    "C52_failed_add_invisible",
    "C52_construct_leaks_refuted",
    "C52_throwing_compare_refuted",
    "C52_throwing_pop_refuted"
   ],
   "note": "Proved: addColumnDescending gives the strong guarantee when computePairData throws or there are too many columns, and such a call is invisible. False of the code (refuted): the PairData whose computation failed is leaked; after an exception from compare the tournament keeps a pointer to the destructed column (undefined behaviour in pop and in the destructor); after an exception from computePairData in pop the top pair has the data of another pair. Allocation failures are the subject of C95."
  },
  {
   "property": "C53",
   "status": "proved",
   "theorems": [
    "C53_debug_build_agrees",
    "C53_debug_valid"
   ],
   "note": "Histories with removeElement only for the packed tree and without a divisor cache (see C33)."
  },
  {
   "property": "C54",
   "status": "proved",
   "theorems": [
    "C54_register",
    "C54_overview",
    "C54_lines",
    "C54_other_name_refuted",
    "C54_two_line_summary_refuted"
   ],
   "note": "For actions registered under their own names with one-line summaries; witnesses show that both are needed. 7-bit texts. The layout is proved for empty messages, which are the only ones possible as registerHelpAction is not defined."
  },
  {
   "property": "C55",
   "status": "proved",
   "theorems": [
    "C55_topic",
    "C55_unknown_topic",
    "C55_command_line"
   ],
   "note": "7-bit descriptions; the raw lines about parameters byte for byte."
  },
  {
   "property": "C56",
   "status": "proved",
   "theorems": [
    "C56_heap_with_stateful_deduplicate"
   ],
   "note": ""
  },
  {
   "property": "C57",
   "status": "proved",
   "theorems": [
    "C57_heap_top_agrees",
    "C57_tourtree_top_agrees",
    "C57_stlset_top_agrees",
    "C57_geobucket_top_agrees"
   ],
   "note": "StlSet has no decreaseTop."
  },
  {
   "property": "C58",
   "status": "proved",
   "theorems": [
    "C58_queue_answers_as_expected",
    "C58_main_queues"
   ],
   "note": "All queues of pqMain.cpp, and Geobucket with all sizes and settings, except Geobucket on spans with de-duplication, where the pending items would be pushed by a deduplicate with side effects. Fuel bounds the loops; twice the number of pushed values suffices."
  },
  {
   "property": "C59",
   "status": "partial",
   "theorems": [
    "C59_no_false_error",
    "C59_dupSpans_no_false_error",
    "C59_main_no_false_error",
    "C59_orderSpans_no_false_error",
    "C59_dupSpans_reaches_goal",
    "C59_dupSpans_defined",
    "C59_dupSpans_defined_refuted",
    "C59_dupSpans_goal_zero_refuted",
    "C59_randomSpans_refuted",
    "C59_randomSpans_pops_empty_refuted",
    "C59_dupSpans_exact_refuted"
   ],
   "note": "Proved for dupSpans, which is what main uses, for orderSpans, and for all simulations built from non-empty pushes and pops. False of randomSpans: it expects copies of a value to be popped one by one (refuted). dupSpans takes a remainder by zero for spans of one value, divides by zero for goal zero, and may push more than its goal (refuted). That the generators stop is not proved, as they draw random numbers until one is new."
  },
  {
   "property": "C60",
   "status": "partial",
   "theorems": [
    "C60_no_false_error",
    "C60_main_no_false_error",
    "C60_repeats_refuted",
    "C60_repeats_queries_refuted",
    "C60_states_refuted"
   ],
   "note": "Proved for one repetition, which is what main uses, with the number of monomials given by Spec/DivClient.v. Without minimizing, a tree needs leaves that hold the copies of a monomial (main: no monomial drawn twice). False for two repetitions, where the finder is not emptied in between, and for the unused state events, which compare the order of entries (refuted)."
  },
  {
   "property": "C61",
   "status": "partial",
   "theorems": [
    "C61_disagreement_detected",
    "C61_debug_missing_divisors_refuted"
   ],
   "note": "Proved without DEBUG. With DEBUG only insertions are compared in both directions; a finder that misses divisors is not noticed (refuted), one that finds more than the first is."
  },
  {
   "property": "C62",
   "status": "partial",
   "theorems": [
    "C62_standard_counts",
    "C62_asked_counts_refuted",
    "C62_insertions_only"
   ],
   "note": "False whenever queries are asked for: there is one insertion more and one query less (refuted, with the exact events). True for insertions only."
  },
  {
   "property": "C63",
   "status": "partial",
   "theorems": [
    "C63_bit_triangle_tests",
    "C63_hash_table_tests",
    "C63_pair_queue_counts",
    "C63_pair_queue_ordering",
    "C63_pair_queue_large_indices",
    "C63_pair_queue_constructions",
    "C63_pair_queue_retirement",
    "C63_div_finder_test_refuted"
   ],
   "note": "All assertions of the tests of BitTriangle, HashTable and PairQueue hold of the model, computed call by call. The test of the divisor finders is undefined: for one variable the default thresholds of the masks overflow an int (refuted)."
  },
  {
   "property": "C64",
   "status": "proved",
   "theorems": [
    "C64_memory_is_priority_queue",
    "C64_same_answers",
    "C64_areas"
   ],
   "note": ""
  },
  {
   "property": "C65",
   "status": "partial",
   "theorems": [
    "C65_memory_bound",
    "C65_same_size_linear_refuted"
   ],
   "note": "Proved for Plain and DoubleBuffer, with the constants; with SameSizeBuffer the bound has the number of buckets (a logarithm) as a factor and the linear claim is refuted."
  },
  {
   "property": "C66",
   "status": "proved",
   "theorems": [
    "C66_memory_same_answers",
    "C66_memory_exact",
    "C66_memory_caught"
   ],
   "note": "The memory is an arena of nodes; inside a node the entries are an array of values."
  },
  {
   "property": "C67",
   "status": "partial",
   "theorems": [
    "C67_reset_partial",
    "C67_failed_reset_refuted"
   ],
   "note": "Proved for ranges in which no monomial has more copies than fit into a leaf. Otherwise reset throws and leaves a tree that cannot even be destroyed: clear() follows a null or a never written pointer (refuted). KDTree::rebuild never gives reset such a range, as the tree it comes from holds the copies in one leaf."
  },
  {
   "property": "C68",
   "status": "proved",
   "theorems": [
    "C68_counting_changes_nothing",
    "C68_history_comparisons",
    "C68_sorting_comparisons"
   ],
   "note": "The constants are explicit. Counted are calls of Configuration::compare, which is also what de-duplication uses."
  },
  {
   "property": "C69",
   "status": "partial",
   "theorems": [
    "C69_no_assertion_fails_partial",
    "C69_empty_range_refuted",
    "C69_clear_refuted"
   ],
   "note": "Proved for non-empty ranges and, with trackFront, histories without clear. An empty range is sorted, but pushing it fails an assertion, while the release build does nothing (refuted for all configurations); clear with trackFront fails isValid (refuted)."
  },
  {
   "property": "C70",
   "status": "proved",
   "theorems": [
    "C70_heap_top_may_change",
    "C70_tourtree_top_may_change",
    "C70_geobucket_top_may_change"
   ],
   "note": "The change must follow a call of top(), as in PairQueue: without trackFront a Geobucket does not know its top entry before. Examples show that a push between the change and the removal is not allowed."
  },
  {
   "property": "C71",
   "status": "proved",
   "theorems": [
    "C71_heap_no_assertion_fails",
    "C71_tourtree_no_assertion_fails",
    "C71_pairqueue_no_assertion_fails",
    "C71_second_retirement_unnoticed"
   ],
   "note": "The debug build equals the release build call by call. One assertion the documentation speaks of does not exist: retiring an index twice goes unnoticed (C71_second_retirement_unnoticed)."
  },
  {
   "property": "C72",
   "status": "partial",
   "theorems": [
    "C72_comtree_no_assertion_fails",
    "C72_comtree_swap_no_assertion_fails",
    "C72_comtree_move_no_assertion_refuted",
    "C72_triangle_assertions_exact",
    "C72_hashtable_no_assertion_fails",
    "C72_divlist_no_assertion_fails"
   ],
   "note": "Proved for every call but the move constructor of ComTree, after which both trees fail the assertion of their destructor (refuted for every tree with an array). A DivList with automatic rebuilds needs a positive rebuild ratio."
  },
  {
   "property": "C73",
   "status": "proved",
   "theorems": [
    "C73_heap_any_comparison",
    "C73_tourtree_any_comparison",
    "C73_geobucket_any_comparison",
    "C73_nothing_lost",
    "C73_hashtable_any_equality"
   ],
   "note": "The functions are deterministic and do not throw. Geobucket: clear with trackFront and empty ranges are left out (C24, C69)."
  },
  {
   "property": "C74",
   "status": "partial",
   "theorems": [
    "C74_heap_normal",
    "C74_heap_push",
    "C74_heap_pop",
    "C74_heap_decreaseTop",
    "C74_heap_dedup",
    "C74_heap_order",
    "C74_heap_strong_guarantee_refuted",
    "C74_heap_push_order_refuted",
    "C74_tourtree_normal",
    "C74_tourtree_players",
    "C74_tourtree_refuted",
    "C74_tourtree_push_refuted",
    "C74_geobucket_push",
    "C74_geobucket_refuted",
    "C74_hashtable_normal",
    "C74_hashtable_lookup",
    "C74_hashtable_insert",
    "C74_hashtable_count_refuted",
    "C74_hashtable_grow_refuted",
    "C74_hashtable_memory_refuted"
   ],
   "note": "That the container can be used on is refuted: push of a Heap may break its order, a TourTree may later use a removed player or deliver an entry twice, a Geobucket counts an entry too many, and a HashTable that threw while it grew has lost entries or reads past its array. For Geobucket only exceptions in the search for the place of a single pushed entry are modelled here; C85 has all others."
  },
  {
   "property": "C75",
   "status": "proved",
   "theorems": [
    "C75_leaf_memory",
    "C75_clear_destroys_all",
    "C75_remove_multiples"
   ],
   "note": "The calls are those of the class and the splits of both trees; that each tree clears every leaf is C66."
  },
  {
   "property": "C76",
   "status": "partial",
   "theorems": [
    "C76_geobucket_name",
    "C76_queue_name",
    "C76_divlist_name",
    "C76_kdtree_name_partial",
    "C76_kdtree_name_refuted",
    "C76_pqMain_names",
    "C76_finder_name",
    "C76_divMain_names",
    "C76_divMain_names_refuted"
   ],
   "note": "The name of a KDTree without masks does not tell whether the tree is rebuilt automatically, which changes the order of forAll (refuted); the DEBUG build of divMain runs two finders, which behave alike, under one name (refuted). How a stream shows the rebuild ratio is a parameter."
  },
  {
   "property": "C77",
   "status": "proved",
   "theorems": [
    "C77_trees_are_separate",
    "C77_pointers",
    "C77_no_leak",
    "C77_all_freed"
   ],
   "note": ""
  },
  {
   "property": "C78",
   "status": "partial",
   "theorems": [
    "C78_tourtree_copy_reads_partial",
    "C78_tourtree_copy_push_refuted",
    "C78_tourtree_copy_dangles_refuted",
    "C78_tourtree_copy_independent_refuted",
    "C78_tourtree_move_refuted",
    "C78_heap_move_refuted",
    "C78_stlset_values_partial",
    "C78_stlset_defined_partial",
    "C78_stlset_outlives_refuted"
   ],
   "note": "False of the code: the nodes of a copied TourTree point to the players of the original, a moved one loses its nodes, the move constructor of Heap reads uninitialised memory, and the comparator of a copied or moved StlSet points to the configuration of the original (all refuted). Proved: a copied TourTree answers reading calls as long as the original is unchanged; StlSet objects behave as values in every defined run, and runs that destroy no object they copied or moved are defined. Copies of PairQueue and HashTable depend on memtailor and are not modelled."
  },
  {
   "property": "C79",
   "status": "partial",
   "theorems": [
    "C79_heap_print",
    "C79_heap_levels",
    "C79_braces_refuted",
    "C79_tourtree_print_refuted",
    "C79_stlset_print",
    "C79_geobucket_print_partial",
    "C79_geobucket_print_refuted",
    "C79_kdtree_print"
   ],
   "note": "False of the code: heaps and tournament trees print one closing brace too many, tournament trees print addresses of players instead of entries, and geobuckets print four entries of each large bucket (all refuted). The rest is proved."
  },
  {
   "property": "C80",
   "status": "proved",
   "theorems": [
    "C80_heap_on_array",
    "C80_heap_memory",
    "C80_tourtree_memory",
    "C80_growth_is_amortised",
    "C80_top_of_empty_refuted"
   ],
   "note": "Calls that need an entry on an empty heap are outside the claim; C80_top_of_empty_refuted shows that such a call can go unnoticed."
  },
  {
   "property": "C81",
   "status": "proved",
   "theorems": [
    "C81_counted_table_is_table",
    "C81_hash_calls_amortised",
    "C81_key_comparisons",
    "C81_bins_linear",
    "C81_bounded_lookup_refuted"
   ],
   "note": "What hash functions that spread badly do is outside the claim; C81_bounded_lookup_refuted shows that a constant one, which the documentation allows, makes lookups arbitrarily long."
  },
  {
   "property": "C82",
   "status": "proved",
   "theorems": [
    "C82_counted_list_is_list",
    "C82_counted_tree_is_tree",
    "C82_list_calls",
    "C82_tree_divides_calls",
    "C82_tree_exponents",
    "C82_once_per_entry_refuted",
    "C82_removals_leave_nodes_refuted"
   ],
   "note": "C82_once_per_entry_refuted shows that the additional question about the cached divisor is real, C82_removals_leave_nodes_refuted that the bound by entries needs removals to be disabled. Comparisons of std::upper_bound and exponents read for masks and splits are not counted."
  },
  {
   "property": "C83",
   "status": "proved",
   "theorems": [
    "C83_summary",
    "C83_simulations",
    "C83_pops",
    "C83_entries_popped_refuted",
    "C83_percentage",
    "C83_no_duplicates_refuted",
    "C83_events_printed",
    "C83_events_determined",
    "C83_empty_push_printed_refuted"
   ],
   "note": "The number printed as entries popped in total is that of the values pushed (C83_entries_popped_refuted), asking for no duplicates does not prevent them (C83_no_duplicates_refuted), and printing the event of an empty push reads an uninitialised value (C83_empty_push_printed_refuted)."
  },
  {
   "property": "C84",
   "status": "proved",
   "theorems": [
    "C84_commafy_same",
    "C84_pq_table",
    "C84_div_table",
    "C84_pq_table_determines",
    "C84_div_table_determines",
    "C84_names_good",
    "C84_line_determines",
    "C84_order_refuted"
   ],
   "note": "Results with equal times may come in any order (C84_order_refuted)."
  },
  {
   "property": "C85",
   "status": "proved",
   "theorems": [
    "C85_throws_or_same",
    "C85_exception_keeps_contents",
    "C85_client_may_go_on",
    "C85_without_premerge_refuted",
    "C85_plain_buckets_refuted",
    "C85_tracked_front_refuted",
    "C85_tracked_front_pop_refuted",
    "C85_size_with_dedup_refuted"
   ],
   "note": "Entries that were held may be lost without premerging (C85_without_premerge_refuted) and with plain buckets (C85_plain_buckets_refuted); a tracked front may be left in the wrong order (C85_tracked_front_refuted) and a pop may lose the top (C85_tracked_front_pop_refuted); with de-duplication size() may be too small (C85_size_with_dedup_refuted). Assigning entries does not throw in this model, nor do the small allocations of addBucket, which are the subject of C97."
  },
  {
   "property": "C86",
   "status": "proved",
   "theorems": [
    "C86_throws_or_same",
    "C86_client_may_go_on",
    "C86_rebuild_repairs",
    "C86_rebuild_throws_refuted",
    "C86_insert_throws_refuted",
    "C86_sorted_range_throws_refuted",
    "C86_sorted_remove_throws_refuted",
    "C86_vector_remove_throws_refuted"
   ],
   "note": "In the excepted calls exceptions do harm: after one in rebuild or in an insert that rebuilds, findDivisor misses divisors (C86_rebuild_throws_refuted, C86_insert_throws_refuted); after one in a range insertion or in removeMultiples a sorted vector is out of order and a search is undefined (C86_sorted_range_throws_refuted, C86_sorted_remove_throws_refuted); on a vector the entries reported by removeMultiples are still there (C86_vector_remove_throws_refuted). Copies of entries and allocations are taken not to throw."
  },
  {
   "property": "C87",
   "status": "proved",
   "theorems": [
    "C87_throws_or_same",
    "C87_searches_go_on",
    "C87_for_all_refuted",
    "C87_all_divisors_refuted",
    "C87_all_multiples_refuted",
    "C87_rebuild_refuted"
   ],
   "note": "That enumerations report exactly what they should after a caught exception is false in both trees (C87_for_all_refuted, C87_all_divisors_refuted, C87_all_multiples_refuted), and a rebuild then duplicates entries for good and makes size() wrong (C87_rebuild_refuted). Exceptions in calls that change the tree are not part of this property."
  },
  {
   "property": "C88",
   "status": "proved",
   "theorems": [
    "C88_throws_or_same",
    "C88_harmless",
    "C88_trees_go_on",
    "C88_remove_element_goes_on",
    "C88_root_refuted",
    "C88_allocation_refuted",
    "C88_sorted_refuted",
    "C88_no_removals_refuted",
    "C88_cache_refuted"
   ],
   "note": "The cases in which a throwing insert does harm are shown by witnesses: splits of the root (C88_root_refuted), failing allocations in the binary tree (C88_allocation_refuted), sortOnInsert (C88_sorted_refuted), AllowRemovals off (C88_no_removals_refuted) and the divisor cache (C88_cache_refuted). Automatic rebuilds, removeMultiples and explicit rebuilds are taken not to throw here."
  },
  {
   "property": "C89",
   "status": "proved",
   "theorems": [
    "C89_throws_or_same",
    "C89_what_is_left",
    "C89_all_calls_go_on",
    "C89_size_refuted",
    "C89_reported_refuted",
    "C89_twice_refuted",
    "C89_sorted_refuted",
    "C89_cache_refuted",
    "C89_enumeration_refuted"
   ],
   "note": "What is not guaranteed is shown by witnesses: size() (C89_size_refuted), entries given to the output that are still there (C89_reported_refuted), entries that are there twice (C89_twice_refuted), sorted leaves (C89_sorted_refuted), the divisor cache (C89_cache_refuted) and entries reported twice (C89_enumeration_refuted). Insertions, removeElement and rebuilds while nodes are left in _tmp are excluded (see C87_rebuild_refuted for what a rebuild does then), and rebuilds are taken not to throw."
  },
  {
   "property": "C90",
   "status": "partial",
   "theorems": [
    "C90_throws_or_same",
    "C90_what_is_left",
    "C90_stale_calculator_honest",
    "C90_rebuilding_again",
    "C90_entries_kept_refuted",
    "C90_never_torn_refuted",
    "C90_finds_refuted",
    "C90_masks_refuted",
    "C90_cache_refuted"
   ],
   "note": "The last sentence is false of the code: witnesses show that all entries may be lost while size() stays (C90_entries_kept_refuted), that the tree may be torn (C90_never_torn_refuted), that divisors are not found after an exception in the calculator (C90_finds_refuted) or a failed allocation (C90_masks_refuted), and that the divisor cache points to a freed entry (C90_cache_refuted). Everything else is proved. clear() is taken not to throw."
  },
  {
   "property": "C91",
   "status": "partial",
   "theorems": [
    "C91_tourtree_goes_on_partial",
    "C91_push_after_failure_refuted",
    "C91_tourtree_enough_memory",
    "C91_heap_goes_on",
    "C91_triangle_goes_on_partial",
    "C91_refused_column_refuted",
    "C91_counted_column_refuted"
   ],
   "note": "Proved for Heap. For TourTree everything holds except that a push may be undefined once reserve has failed in an earlier one (C91_push_after_failure_refuted); the theorem says exactly when. For BitTriangle a refused column may be counted and its bits may not be used (C91_refused_column_refuted, C91_counted_column_refuted); everything else holds. That copying an entry throws is not modelled."
  },
  {
   "property": "C92",
   "status": "proved",
   "theorems": [
    "C92_rebuilt_depth",
    "C92_depth_bounded",
    "C92_one_level",
    "C92_automatic_depth",
    "C92_ascending_refuted"
   ],
   "note": "The bound by logarithms does not hold without rebuilds, where ascending insertions add one level each (C92_ascending_refuted)."
  },
  {
   "property": "C93",
   "status": "partial",
   "theorems": [
    "C93_apart_by_a_piece",
    "C93_small_ranges_exact",
    "C93_least_apart_partial",
    "C93_default_zero_apart",
    "C93_least_apart_refuted",
    "C93_covers_range_refuted"
   ],
   "note": "The first sentence is false of the code for variables other than 0 whose exponents all exceed that of variable 0 in the first entry: the range starts from the wrong variable (C93_least_apart_refuted; C93_least_apart_partial is the rest). The thresholds may miss the upper half of a range (C93_covers_range_refuted). Everything else is proved. Unsigned types, whose arithmetic wraps around, are left out."
  },
  {
   "property": "C94",
   "status": "partial",
   "theorems": [
    "C94_throws_or_same",
    "C94_insert_left",
    "C94_remove_left",
    "C94_tried_again",
    "C94_not_inserted_refuted",
    "C94_insert_loses_refuted",
    "C94_remove_loses_refuted",
    "C94_never_torn_refuted"
   ],
   "note": "The last sentence is false of the code, also for calls that are harmless by C88 and C89: the entry may have been inserted (C94_not_inserted_refuted), all entries may be lost (C94_insert_loses_refuted, C94_remove_loses_refuted), and the tree may be left in a state in which every further call is undefined (C94_never_torn_refuted). The first sentence is proved. Copying an entry is taken not to throw."
  },
  {
   "property": "C95",
   "status": "partial",
   "theorems": [
    "C95_failed_calls_invisible",
    "C95_add_strong_guarantee",
    "C95_pairdata_lifetimes",
    "C95_progress_partial",
    "C95_enough_memory",
    "C95_add_after_failure_refuted"
   ],
   "note": "The last sentence is false of the code (C95_add_after_failure_refuted): when the second allocation of a growth of the tournament fails, a later addition is undefined, as in C91. Proved instead: an allowed call is undefined only if it adds a column after some call threw and the players are full (C95_progress_partial). The rest is proved."
  },
  {
   "property": "C96",
   "status": "proved",
   "theorems": [
    "C96_counting_changes_nothing",
    "C96_comparisons_of_a_call",
    "C96_pop_logarithmic",
    "C96_comparisons_of_a_history",
    "C96_pair_data_computed_once"
   ],
   "note": "The comparisons are counted in PairQueue/Counted.v, which gives the answers of PairQueue/Model.v (C96_counting_changes_nothing); the computations of pair data are those of the log of that model."
  },
  {
   "property": "C97",
   "status": "partial",
   "theorems": [
    "C97_throws_or_same",
    "C97_client_may_go_on_partial",
    "C97_failed_push_keeps_entries",
    "C97_later_allocations_refuted",
    "C97_size_refuted"
   ],
   "note": "Proved in every configuration for the allocation of the new vector of entries, except for the answers of size() and empty(), which count what was not added (C97_size_refuted). False for the two other allocations of addBucket: after every history and in every configuration their failure leaves all buckets pointing into freed memory (C97_later_allocations_refuted)."
  },
  {
   "property": "C98",
   "status": "partial",
   "theorems": [
    "C98_geobucket_memory",
    "C98_geobucket_memory_bound",
    "C98_set_memory",
    "C98_set_peak_refuted",
    "C98_triangle_memory",
    "C98_triangle_memory_bound"
   ],
   "note": "Proved for Geobucket and BitTriangle. False for StlSet: it reports a constant for each entry held at the moment (C98_set_memory), so that pqsim shows 0 kb for a set that was emptied (C98_set_peak_refuted)."
  },
  {
   "property": "C99",
   "status": "partial",
   "theorems": [
    "C99_no_wrap_if_memory_fits",
    "C99_no_wrap",
    "C99_large_base_refuted",
    "C99_large_factor_refuted"
   ],
   "note": "Proved for histories whose memory fits (C99_no_wrap_if_memory_fits) and with a bound linear in the entries (C99_no_wrap). False for large factors: the code does not notice, copies beyond the end of the new vector (C99_large_base_refuted) or loses entries (C99_large_factor_refuted)."
  },
  {
   "property": "C100",
   "status": "partial",
   "theorems": [
    "C100_searches_in_callbacks",
    "C100_callbacks_that_do_not_search",
    "C100_divlist_searches_in_callbacks",
    "C100_for_all_misses_refuted",
    "C100_all_divisors_misses_refuted",
    "C100_all_multiples_misses_refuted",
    "C100_repeats_refuted"
   ],
   "note": "Proved for DivList (C100_divlist_searches_in_callbacks). In KDTree nothing is harmed, findDivisor in a callback is right, and what is reported is right (C100_searches_in_callbacks); callbacks that do not search get everything (C100_callbacks_that_do_not_search). Completeness is false of both trees, since the searches share the member _tmp: a search in the callback makes the outer search miss entries (the _misses_refuted theorems) and may itself report entries twice (C100_repeats_refuted)."
  },
  {
   "property": "C101",
   "status": "partial",
   "theorems": [
    "C101_binary_linear",
    "C101_packed_partial",
    "C101_rebuild_linear",
    "C101_packed_falling",
    "C101_packed_linear_refuted"
   ],
   "note": "Proved for BinaryKDTree (C101_binary_linear), and for both trees right after a rebuild (C101_rebuild_linear). False of PackedKDTree between rebuilds: splitInsert copies the children into a new node and leaves the memory of the old ones unused, so that n insertions can take the memory of (n-1)(n-2)/2 children (C101_packed_falling, C101_packed_linear_refuted); the bound that does hold is quadratic in the insertions since the last rebuild (C101_packed_partial)."
  },
  {
   "property": "C102",
   "status": "partial",
   "theorems": [
    "C102_memory_partial",
    "C102_small_columns",
    "C102_never_shrinks",
    "C102_peak_refuted"
   ],
   "note": "Proved is a bound by the columns and pairs that were ever added, together with the columns held at a time for the tournament (C102_memory_partial), with exactly 16 bits per pair while the columns are small (C102_small_columns). The bound by what is held at a time is false: columns lie in an arena that gives nothing back before the queue is destroyed, so that a queue that never holds more than one pair takes as many Column objects as columns were ever added (C102_never_shrinks, C102_peak_refuted)."
  },
  {
   "property": "C103",
   "status": "proved",
   "theorems": [
    "C103_divlist_memory",
    "C103_divlist_never_shrinks",
    "C103_hashtable_memory"
   ],
   "note": "Proved apart from what the memory pool of HashTable reserves beyond its nodes. getMemoryUse of a DivList on a std::list does not compile."
  },
  {
   "property": "C104",
   "status": "partial",
   "theorems": [
    "C104_changes_partial",
    "C104_exact_without_masks",
    "C104_rebuilds_end",
    "C104_masks_refuted",
    "C104_insert_refuted"
   ],
   "note": "Proved: all that is reported is wanted and reported once (C104_changes_partial), the search comes to an end if the callback only searches and rebuilds (C104_rebuilds_end), and it is exact for forAll and without divmasks (C104_exact_without_masks). False with divmasks: the mask of the monomial is computed before the loop and does not fit the masks after a rebuild, so that divisors are missed after an explicit rebuild (C104_masks_refuted) and after one insertion into a linked list that triggers the automatic rebuild (C104_insert_refuted)."
  },
  {
   "property": "C105",
   "status": "proved",
   "theorems": [
    "C105_vector",
    "C105_linked",
    "C105_unsorted",
    "C105_history",
    "C105_linked_quadratic"
   ],
   "note": "Every comparison is counted in a model that does the same as the one without counting; std::upper_bound is the halving of libstdc++ and is shown to return what the specification asks for. The comparisons of std::sort in a range insertion into an empty list are not counted. C105_linked_quadratic: n insertions in increasing order into a linked list make n(n-1)/2 comparisons."
  },
  {
   "property": "C106",
   "status": "proved",
   "theorems": [
    "C106_same",
    "C106_amortised",
    "C106_single_push",
    "C106_grow_doubles"
   ],
   "note": "The three kinds of work are counted with arbitrary weights in a model that does the same as the one without counting (C106_same). Copies and calls of increaseCapacity by the client are excluded from the amortised bound: increaseCapacity doubles the array even if it is empty (C106_grow_doubles)."
  },
  {
   "property": "C107",
   "status": "proved",
   "theorems": [
    "C107_assignments_against_comparisons",
    "C107_push_and_pop",
    "C107_history"
   ],
   "note": "Assignments to entries of the tree are counted, a swap with a local variable as one; local copies are not counted, and what growing the tree assigns is in C106. No law is asked of the comparison."
  },
  {
   "property": "C108",
   "status": "proved",
   "theorems": [
    "C108_same",
    "C108_call",
    "C108_amortised"
   ],
   "note": "Assignments to entries of players are counted, a swap as two, a push_back as one and a reserve that enlarges the array as one for each player; local copies and the pointers in the tree are not counted (for those see C106). No law is asked of the comparison."
  },
  {
   "property": "C109",
   "status": "proved",
   "theorems": [
    "C109_same",
    "C109_insert",
    "C109_remove_multiples",
    "C109_other_calls",
    "C109_history"
   ],
   "note": "Counted are the assignments that DivList.h makes, the entries stored and the entries that std::vector moves in insert and erase; not what std::sort assigns when a range is inserted into an empty list, nor what a vector assigns when it grows."
  },
  {
   "property": "C110",
   "status": "proved",
   "theorems": [
    "C110_heap",
    "C110_tourtree",
    "C110_stlset",
    "C110_geobucket",
    "C110_only_keys_matter"
   ],
   "note": "A statement about the models, which are polymorphic in the entry type: it holds of the C++ templates as far as the models follow them (no use of addresses or of operations of Entry other than copying)."
  },
  {
   "property": "C111",
   "status": "proved",
   "theorems": [
    "C111_hashtable",
    "C111_values_do_not_matter",
    "C111_divlist",
    "C111_only_monomials_matter"
   ],
   "note": "A statement about the models, which are polymorphic in keys, values and entries. For DivList it is assumed that std::sort, which the model leaves open, treats entries and images alike."
  },
  {
   "property": "C112",
   "status": "proved",
   "theorems": [
    "C112_pairqueue",
    "C112_same_comparisons_same_pairs"
   ],
   "note": "The pair data are values, as in the model of C14; a configuration whose computePairData depends on anything but the pair is not covered. In C112_same_comparisons_same_pairs the comparisons have to agree on data computed for any pairs, not only on the data of the pair they are passed with."
  },
  {
   "property": "C113",
   "status": "proved",
   "theorems": [
    "C113_kdtree",
    "C113_only_monomials_matter"
   ],
   "note": "A statement about the models, which are polymorphic in the entries. It is assumed that std::sort and std::partition, which the model leaves open, treat entries and images alike."
  }
 ]
}