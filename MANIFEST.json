{
 "claims": [
  {
   "property": "C01",
   "status": "proved",
   "theorems": [
    "C01_circular_queue_is_bounded_fifo"
   ],
   "note": ""
  },
  {
   "property": "C02",
   "status": "partial",
   "theorems": [
    "C02_copy_of_nonfull_queue_partial",
    "C02_copy_reports_same_elements_partial",
    "C02_copy_of_full_queue_refuted"
   ],
   "note": "Holds for copies of non-full queues (and what front/size report for all); the code violates it for full queues (refuted with a witness: end is not wrapped)."
  },
  {
   "property": "C03",
   "status": "partial",
   "theorems": [
    "C03_equality_of_nonempty_queues_partial",
    "C03_equality_of_empty_queues_refuted"
   ],
   "note": "Proved for non-empty queues; refuted for empty ones (stale ranges are compared)."
  },
  {
   "property": "C04",
   "status": "proved",
   "theorems": [
    "C04_utf8_round_trip"
   ],
   "note": ""
  },
  {
   "property": "C05",
   "status": "proved",
   "theorems": [
    "C05_copy_utf_converts_every_text",
    "C05_utf16_round_trip"
   ],
   "note": ""
  },
  {
   "property": "C06",
   "status": "partial",
   "theorems": [
    "C06_copy_utf_never_reads_out_of_range",
    "C06_copy_utf_output_bound_partial",
    "C06_invalid_lead_byte_refuted",
    "C06_lone_lead_surrogate_refuted"
   ],
   "note": "In-range reads and the output bound are proved for lead bytes below 0xF8; refuted for bytes >= 0xF8 and lone lead surrogates."
  },
  {
   "property": "C07",
   "status": "proved",
   "theorems": [
    "C07_utf8_output_well_formed",
    "C07_utf8_decode_encode_well_formed"
   ],
   "note": ""
  },
  {
   "property": "C08",
   "status": "proved",
   "theorems": [
    "C08_md5_is_rfc1321_for_every_cut",
    "C08_md5_chunking_independent"
   ],
   "note": ""
  },
  {
   "property": "C09",
   "status": "proved",
   "theorems": [
    "C09_sha_is_fips_180_4_for_every_history",
    "C09_sha_chunking_independent"
   ],
   "note": ""
  },
  {
   "property": "C10",
   "status": "proved",
   "theorems": [
    "C10_sha_finalize_does_not_disturb"
   ],
   "note": ""
  },
  {
   "property": "C11",
   "status": "partial",
   "theorems": [
    "C11_sha_bit_messages_partial",
    "C11_sha_reads_beyond_the_bit_count_refuted"
   ],
   "note": "Proved when the unused low bits of the last byte are zero; refuted in general (they leak into the block)."
  },
  {
   "property": "C12",
   "status": "proved",
   "theorems": [
    "C12_closed_hash_is_a_finite_set",
    "C12_equality"
   ],
   "note": ""
  },
  {
   "property": "C13",
   "status": "proved",
   "theorems": [
    "C13_one_entry_per_key",
    "C13_erase_at_iterator"
   ],
   "note": ""
  },
  {
   "property": "C14",
   "status": "proved",
   "theorems": [
    "C14_forest_operations_refine_ordered_trees",
    "C14_words_are_ordered_trees"
   ],
   "note": ""
  },
  {
   "property": "C15",
   "status": "proved",
   "theorems": [
    "C15_traversals",
    "C15_each_edge_once_and_reversible",
    "C15_child_range"
   ],
   "note": ""
  },
  {
   "property": "C16",
   "status": "proved",
   "theorems": [
    "C16_erase_range"
   ],
   "note": ""
  },
  {
   "property": "C17",
   "status": "proved",
   "theorems": [
    "C17_copy_on_write_is_a_value",
    "C17_identity_and_uniqueness"
   ],
   "note": ""
  },
  {
   "property": "C18",
   "status": "proved",
   "theorems": [
    "C18_reference_counts_are_exact",
    "C18_nothing_leaks"
   ],
   "note": ""
  },
  {
   "property": "C19",
   "status": "partial",
   "theorems": [
    "C19_union",
    "C19_intersection",
    "C19_symmetric_difference",
    "C19_invert",
    "C19_difference_partial",
    "C19_difference_refuted",
    "C19_iterators",
    "C19_is_selected"
   ],
   "note": "Union, intersection, symmetric difference, inversion and the iterator versions are proved; selection_difference is proved unless the first operand starts unselected and the second selected, where it is proved to return the complement."
  },
  {
   "property": "C20",
   "status": "partial",
   "theorems": [
    "C20_equality_partial",
    "C20_equality_refuted"
   ],
   "note": "Proved for selections with equal start_selected; refuted in general (== ignores start_selected)."
  },
  {
   "property": "C21",
   "status": "partial",
   "theorems": [
    "C21_includes_partial",
    "C21_includes_mixed_partial",
    "C21_includes_refuted"
   ],
   "note": "Proved for equal start_selected (a right yes needs a finite second operand) and for mixed starts when the second operand begins after the first boundary; refuted otherwise (wrong yes, wrong no, and a read past the end)."
  },
  {
   "property": "C22",
   "status": "proved",
   "theorems": [
    "C22_copy",
    "C22_foreach",
    "C22_size"
   ],
   "note": ""
  },
  {
   "property": "C23",
   "status": "proved",
   "theorems": [
    "C23_stable_partition",
    "C23_find_boundary"
   ],
   "note": ""
  },
  {
   "property": "C24",
   "status": "proved",
   "theorems": [
    "C24_index_set_to_selection",
    "C24_selection_to_index_set",
    "C24_round_trip"
   ],
   "note": ""
  },
  {
   "property": "C25",
   "status": "partial",
   "theorems": [
    "C25_generate_parse",
    "C25_only_objects_and_arrays",
    "C25_round_trip_partial",
    "C25_integers_partial",
    "C25_digits_refuted"
   ],
   "note": "Proved for every value tree whose numbers survive being printed (in particular integers of up to 15 digits); in general every number comes back as strtod of its printed form. Refuted for 16-digit integers (the text has 15 digits)."
  },
  {
   "property": "C26",
   "status": "partial",
   "theorems": [
    "C26_in_bounds_partial",
    "C26_terminates",
    "C26_in_bounds_refuted"
   ],
   "note": "Proved for every input that does not end right after true, false or null; termination is proved for every input. Refuted for inputs cut after such a literal at any nesting depth (is_sequence moves past both terminators)."
  },
  {
   "property": "C27",
   "status": "partial",
   "theorems": [
    "C27_escapes_partial",
    "C27_pairs_refuted",
    "C27_malformed_pair_refuted",
    "C27_lone_trail_refuted"
   ],
   "note": "Proved for strings without surrogate escapes. Refuted: every RFC surrogate pair throws, the pair without its second backslash is accepted and decoded without 0x10000, a lone trailing surrogate yields ill-formed UTF-8."
  },
  {
   "property": "C28",
   "status": "proved",
   "theorems": [
    "C28_lower_bound_is_partition_point",
    "C28_upper_bound_is_partition_point",
    "C28_equal_range_is_both_points",
    "C28_searches_of_sorted_ranges"
   ],
   "note": ""
  },
  {
   "property": "C29",
   "status": "partial",
   "theorems": [
    "C29_binary_search_partial",
    "C29_equivalent_but_unequal_refuted"
   ],
   "note": "Proved when equivalence implies operator==; refuted otherwise (the code tests == although the documentation promises equivalence)."
  },
  {
   "property": "C30",
   "status": "partial",
   "theorems": [
    "C30_is_sorted_partial",
    "C30_is_sorted_without_ties_partial",
    "C30_is_sorted_range_partial",
    "C30_sorted_prefix_partial",
    "C30_equal_elements_refuted"
   ],
   "note": "The comparison overloads decide strict sortedness (proved), which is sortedness without ties; refuted on ranges with equivalent elements, where the overloads disagree."
  },
  {
   "property": "C31",
   "status": "proved",
   "theorems": [
    "C31_min_max_are_stable",
    "C31_median_is_stable_middle",
    "C31_clamp_is_stable_middle",
    "C31_clamp_returns_nearest",
    "C31_pin_is_clamp",
    "C31_select_with_known_order"
   ],
   "note": ""
  },
  {
   "property": "C32",
   "status": "proved",
   "theorems": [
    "C32_rotate",
    "C32_reverse_until"
   ],
   "note": ""
  },
  {
   "property": "C33",
   "status": "proved",
   "theorems": [
    "C33_reduce_balanced_monoid",
    "C33_reduce_balanced_semigroup",
    "C33_reduction_is_balanced"
   ],
   "note": ""
  },
  {
   "property": "C34",
   "status": "proved",
   "theorems": [
    "C34_gather"
   ],
   "note": ""
  },
  {
   "property": "C35",
   "status": "partial",
   "theorems": [
    "C35_names_are_strings_partial",
    "C35_colliding_strings_refuted"
   ],
   "note": "Proved for histories whose strings have distinct 64-bit hashes; refuted without that (a pair of 20-character colliding strings becomes one name)."
  },
  {
   "property": "C36",
   "status": "proved",
   "theorems": [
    "C36_literal_and_dynamic_names_agree",
    "C36_static_equality_is_name_equality"
   ],
   "note": ""
  },
  {
   "property": "C37",
   "status": "proved",
   "theorems": [
    "C37_pool_history",
    "C37_pool_strings_are_stable"
   ],
   "note": ""
  },
  {
   "property": "C38",
   "status": "partial",
   "theorems": [
    "C38_unique_keeps_the_smallest_key_partial",
    "C38_unique_refuted",
    "C38_unique_by_equivalence_would_hold"
   ],
   "note": "unique() passes the less-than comparison to std::unique as if it were an equality (C38_unique_refuted); what it does is proved (keeps all rows of the smallest key), and that std::unique with the equivalence would have the property."
  },
  {
   "property": "C39",
   "status": "proved",
   "theorems": [
    "C39_machine_computes_the_meaning",
    "C39_always_finishes"
   ],
   "note": ""
  },
  {
   "property": "C40",
   "status": "proved",
   "theorems": [
    "C40_and_skips_its_second_operand",
    "C40_or_skips_its_second_operand",
    "C40_conditional_runs_one_branch",
    "C40_and_or_evaluate_second_when_needed"
   ],
   "note": ""
  },
  {
   "property": "C41",
   "status": "partial",
   "theorems": [
    "C41_fnv1a_of_octets",
    "C41_fnv1a_sentinel_form",
    "C41_fnv1a_of_signed_char_refuted"
   ],
   "note": "Proved for sequences of unsigned octets and for the sentinel form; refuted for sequences of signed char (sign extension)."
  },
  {
   "property": "C43",
   "status": "proved",
   "theorems": [
    "C43_erase_if"
   ],
   "note": ""
  },
  {
   "property": "C44",
   "status": "proved",
   "theorems": [
    "C44_copy_bounded"
   ],
   "note": ""
  },
  {
   "property": "C45",
   "status": "partial",
   "theorems": [
    "C45_bad_alloc_changes_nothing_partial",
    "C45_throwing_copy_constructor_refuted"
   ],
   "note": "Proved for allocator failure (bad_alloc): nothing changes. Refuted for a throwing copy constructor: the catch block calls get_allocator() on memory in which no object was constructed."
  },
  {
   "property": "C46",
   "status": "proved",
   "theorems": [
    "C46_threads_are_isolated",
    "C46_threads_are_wait_free",
    "C46_nothing_leaks"
   ],
   "note": ""
  },
  {
   "property": "C47",
   "status": "partial",
   "theorems": [
    "C47_reverse_children_partial",
    "C47_reverse_inner_range_refuted"
   ],
   "note": "Proved for ranges ending at child_end (any node or the root); refuted by a concrete four-sibling forest when the range ends before child_end."
  },
  {
   "property": "C48",
   "status": "proved",
   "theorems": [
    "C48_equality_is_equality_of_value_trees",
    "C48_copy_has_the_same_value_trees"
   ],
   "note": ""
  },
  {
   "property": "C49",
   "status": "partial",
   "theorems": [
    "C49_partition_copy_inserters_partial",
    "C49_partition_copy_pointers_refuted"
   ],
   "note": "Proved for output iterators that append (back_inserter); refuted for pointers, where each run overwrites the previous one."
  },
  {
   "property": "C50",
   "status": "partial",
   "theorems": [
    "C50_stable_partition_about_partial",
    "C50_stable_partition_about_refuted"
   ],
   "note": "Proved for selections that start unselected; refuted for those that start selected (the unselected elements are gathered)."
  },
  {
   "property": "C51",
   "status": "partial",
   "theorems": [
    "C51_complete_partial",
    "C51_unambiguous",
    "C51_sound_partial",
    "C51_trailing_refuted",
    "C51_nul_name_refuted"
   ],
   "note": "Complete for texts without surrogate escapes, sound for the library's dialect (leading part of the input). Refuted: anything may follow the outermost bracket; names are cut at an escaped NUL."
  },
  {
   "property": "C52",
   "status": "proved",
   "theorems": [
    "C52_escape_is_plain_text",
    "C52_needs_escape_is_exact"
   ],
   "note": ""
  },
  {
   "property": "C53",
   "status": "partial",
   "theorems": [
    "C53_unescape_of_escape",
    "C53_round_trip_partial",
    "C53_round_trip_refuted"
   ],
   "note": "Proved for strings of ASCII characters 1..127, and in general the result is characterised (each byte comes back as the UTF-8 of the Latin-1 character, NULs vanish). Refuted for every string with a byte >= 128 or a NUL (not both)."
  },
  {
   "property": "C54",
   "status": "partial",
   "theorems": [
    "C54_no_ampersand_partial",
    "C54_bare_ampersand_refuted"
   ],
   "note": "Proved for strings without an ampersand; refuted: a bare ampersand with no later semicolon truncates the text although needs_entity_unescape is false."
  },
  {
   "property": "C55",
   "status": "partial",
   "theorems": [
    "C55_element_of_array_partial",
    "C55_number_index_always_throws_refuted",
    "C55_member_of_dictionary"
   ],
   "note": "Members and, where size_t has 4 bytes, elements are proved. Refuted where size_t has 8 bytes: indexing by a number always throws a type error and the numeric_index_lookup callback is never reached (the cast to size_t is only provided for arithmetic types of 2 to 4 bytes)."
  },
  {
   "property": "C56",
   "status": "proved",
   "theorems": [
    "C56_min_is_the_least_argument",
    "C56_max_is_the_greatest_argument"
   ],
   "note": ""
  },
  {
   "property": "C57",
   "status": "proved",
   "theorems": [
    "C57_parser_is_sound",
    "C57_parser_terminates",
    "C57_parser_refuses_exactly",
    "C57_parser_is_complete",
    "C57_parser_decides_the_grammar",
    "C57_grammar_is_unambiguous",
    "C57_parse_then_evaluate"
   ],
   "note": ""
  },
  {
   "property": "C58",
   "status": "proved",
   "theorems": [
    "C58_lookahead_is_a_cursor",
    "C58_two_tokens_of_lookahead",
    "C58_third_putback_overflows"
   ],
   "note": ""
  },
  {
   "property": "C59",
   "status": "partial",
   "theorems": [
    "C59_tokens_are_named_partial",
    "C59_token_to_string_is_the_table",
    "C59_end_of_input_refuted",
    "C59_table_is_sorted"
   ],
   "note": "Proved for every token but the end of input, for which the table has no entry: require_keyword at the end of the input dereferences past the table (C59_end_of_input_refuted)."
  },
  {
   "property": "C42",
   "status": "proved",
   "theorems": [
    "C42_segmented_range_is_the_concatenation",
    "C42_loop_reads_the_concatenation"
   ],
   "note": ""
  },
  {
   "property": "C60",
   "status": "proved",
   "theorems": [
    "C60_searches_bracket_the_key",
    "C60_find_and_subscript",
    "C60_sort_then_find",
    "C60_insert_range"
   ],
   "note": ""
  },
  {
   "property": "C61",
   "status": "proved",
   "theorems": [
    "C61_lexer_is_sound",
    "C61_lexer_is_complete",
    "C61_lexer_refuses_the_others",
    "C61_reading_is_unambiguous",
    "C61_lexer_terminates"
   ],
   "note": ""
  },
  {
   "property": "C62",
   "status": "partial",
   "theorems": [
    "C62_position_is_the_offset",
    "C62_line_number_is_right_partial",
    "C62_line_number_after_multi_line_string_refuted"
   ],
   "note": "Offsets are proved for every token; line numbers for texts whose string literals stay on one line. Refuted: line ends inside a string literal are not counted."
  },
  {
   "property": "C63",
   "status": "partial",
   "theorems": [
    "C63_ascii_texts_are_defined_partial",
    "C63_other_texts_refuted"
   ],
   "note": "Proved for ASCII texts and for every text that lexes; refuted: a byte 128..254 outside strings and comments reaches a <cctype> function as a negative value."
  },
  {
   "property": "C64",
   "status": "proved",
   "theorems": [
    "C64_text_to_value",
    "C64_only_expressions_parse"
   ],
   "note": ""
  },
  {
   "property": "C65",
   "status": "proved",
   "theorems": [
    "C65_every_relation_is_decided"
   ],
   "note": ""
  },
  {
   "property": "C66",
   "status": "partial",
   "theorems": [
    "C66_derived_cells_give_way",
    "C66_highest_priority_is_kept",
    "C66_computed_from_higher",
    "C66_derived_cells_sink",
    "C66_several_names_refuted"
   ],
   "note": "Acyclicity and the bounds along chains are proved for relations whose terms name one cell each; refuted for terms naming several: two cells can then be derived from each other and update() reports a cycle (C66_several_names_refuted). Everything else is proved without that restriction."
  },
  {
   "property": "C67",
   "status": "proved",
   "theorems": [
    "C67_set_is_the_highest",
    "C67_the_set_cell_is_kept",
    "C67_touch_keeps_the_order"
   ],
   "note": ""
  },
  {
   "property": "C68",
   "status": "partial",
   "theorems": [
    "C68_update_solves_the_sheet_partial",
    "C68_the_relation_holds_partial",
    "C68_cycle_refuted",
    "C68_own_name_twice_refuted",
    "C68_after_a_throw_refuted"
   ],
   "note": "Proved for sheets with a definitional rank (no cycle through expressions and terms in use), where the expression of a derived cell mentions its own name at most once, in histories without a throwing update. Each restriction is shown necessary: C68_cycle_refuted, C68_own_name_twice_refuted (both code defects), C68_after_a_throw_refuted (stale evaluation stack after an exception)."
  },
  {
   "property": "C69",
   "status": "partial",
   "theorems": [
    "C69_value_depends_only_on_contributors_partial",
    "C69_contributing_set_is_enough_partial",
    "C69_order_does_not_matter_partial",
    "C69_ties_are_only_uninitialised",
    "C69_no_ties",
    "C69_ties_refuted",
    "C69_consulted_cell_refuted"
   ],
   "note": "Proved with the conditions' inputs added to the cell's contributing set, and with the set alone for cells evaluated after all conditions. Refuted: ties between uninitialised cells make the result depend on std::sort; a cell consulted by a later condition lacks the inputs of earlier conditions."
  },
  {
   "property": "C70",
   "status": "partial",
   "theorems": [
    "C70_monitors_are_told_the_changes_partial",
    "C70_after_a_throw_refuted"
   ],
   "note": "Proved in histories without a throwing update; refuted after one: a change can go unreported."
  },
  {
   "property": "C71",
   "status": "proved",
   "theorems": [
    "C71_invariant_flags"
   ],
   "note": ""
  },
  {
   "property": "C72",
   "status": "partial",
   "theorems": [
    "C72_inspect_reads_the_solution",
    "C72_subscript_of_logic_cell_refuted"
   ],
   "note": "inspect() proved; operator[] proved for interface and output cells through C68; refuted for a logic cell nothing has referred to (stale value)."
  },
  {
   "property": "C73",
   "status": "partial",
   "theorems": [
    "C73_round_trip_partial",
    "C73_scientific_numbers_refuted",
    "C73_keys_refuted",
    "C73_infinity_refuted",
    "C73_other_strings_refuted",
    "C73_other_types_refuted"
   ],
   "note": "Proved for values of decimal numbers, booleans, ASCII strings (any without quote and NUL when not escaping), identifiers, empty, and arrays and dictionaries of them whose keys are identifiers and not keywords; text under 2^31 bytes. Refuted for scientific-notation numbers, Infinity/NaN, other keys, non-ASCII strings and other types (the code's defects)."
  },
  {
   "property": "C74",
   "status": "proved",
   "theorems": [
    "C74_text_is_canonical",
    "C74_text_identifies_the_value"
   ],
   "note": ""
  },
  {
   "property": "C75",
   "status": "proved",
   "theorems": [
    "C75_one_at_a_time_in_order"
   ],
   "note": ""
  },
  {
   "property": "C76",
   "status": "proved",
   "theorems": [
    "C76_suspended"
   ],
   "note": ""
  },
  {
   "property": "C77",
   "status": "proved",
   "theorems": [
    "C77_work_comes_to_an_end",
    "C77_no_task_is_forgotten"
   ],
   "note": ""
  },
  {
   "property": "C78",
   "status": "partial",
   "theorems": [
    "C78_jobs_are_taken_in_order_and_run_once",
    "C78_every_job_is_run",
    "C78_no_workers_refuted"
   ],
   "note": "Proved for every pool with at least one worker; refuted for hardware_concurrency() == 0, which the standard allows: no worker is started and nothing runs."
  },
  {
   "property": "C79",
   "status": "proved",
   "theorems": [
    "C79_not_before_its_time_and_earliest_first",
    "C79_each_task_once",
    "C79_never_undefined",
    "C79_what_is_due_has_been_handed_on",
    "C79_work_comes_to_an_end"
   ],
   "note": ""
  },
  {
   "property": "C80",
   "status": "partial",
   "theorems": [
    "C80_called_at_most_once_and_only_when_canceled",
    "C80_is_canceled",
    "C80_registered_too_late",
    "C80_callbacks_owed_are_called_partial",
    "C80_without_deregistration",
    "C80_work_comes_to_an_end",
    "C80_deregister_takes_out_the_wrong_callback_refuted",
    "C80_throwing_callback_refuted"
   ],
   "note": "Calls at most once, only when cancelled, late registration and is_canceled proved in full; that exactly the owed callbacks are called is proved when every callback deregistered was registered while no other was (or nothing is deregistered); refuted in general: register_callback returns the address of the oldest callback, not of the one registered. Refuted too when a callback throws: cancel() takes out all callbacks before calling them, so those after the throwing one are lost (the positive part assumes nothing thrown)."
  },
  {
   "property": "C81",
   "status": "proved",
   "theorems": [
    "C81_linearizable",
    "C81_calls_return"
   ],
   "note": ""
  },
  {
   "property": "C82",
   "status": "proved",
   "theorems": [
    "C82_search_reports_every_exact_cover_once",
    "C82_both_heuristics_pick_a_column",
    "C82_the_default_heuristic_picks_a_tightest_column",
    "C82_the_number_found_does_not_depend_on_the_heuristic",
    "C82_zero_means_unsolvable",
    "C82_asked_for_none_it_reports_one",
    "C82_a_colour_in_a_primary_column_is_not_ignored"
   ],
   "note": ""
  },
  {
   "property": "C83",
   "status": "partial",
   "theorems": [
    "C83_views_are_contained",
    "C83_views_lie_in_the_window",
    "C83_leaves_do_not_overlap",
    "C83_reverse_fill_refuted"
   ],
   "note": "Proved for forms without guides (none measured, or suppressed), without negative attributes and without items that fill from the right across their container; the latter are refuted: they stick out."
  },
  {
   "property": "C84",
   "status": "proved",
   "theorems": [
    "C84_layout_is_exact",
    "C84_exact_rounding_is_sensible"
   ],
   "note": ""
  },
  {
   "property": "C86",
   "status": "partial",
   "theorems": [
    "C86_laid_out_if_right_aligned_items_are_last",
    "C86_resized_if_right_aligned_items_are_last",
    "C86_not_laid_out_otherwise",
    "C86_lone_proportional_item_refuted"
   ],
   "note": "Success proved for every form without guides and proportional items; failure for every form with a right aligned item before another. One direction is proved for proportional items (Eve_Total.run_total); refuted for a proportional item that is alone in its line (0/0 converted to int)."
  },
  {
   "property": "C87",
   "status": "partial",
   "theorems": [
    "C87_every_layout_of_a_session",
    "C87_heights_come_from_final_widths",
    "C87_resize_after_hiding_refuted",
    "C87_default_alignment_refuted"
   ],
   "note": "Proved for sessions that call evaluate after set_visible before they call adjust; refuted without (lengths never shrink), and for containers whose child alignment is align_default (their children move at each evaluation)."
  },
  {
   "property": "C85",
   "status": "partial",
   "theorems": [
    "C85_guides_line_up_when_settled",
    "C85_guides_of_a_container",
    "C85_first_guide_is_kept",
    "C85_rows_line_up",
    "C85_later_guides_are_squeezed_refuted",
    "C85_solver_need_not_settle_refuted",
    "C85_balance_need_not_settle_refuted"
   ],
   "note": "Proved when the solver settles and no row or column is balanced; guides of a container that stands in a line next to others are not covered. Refuted: the solver need not settle (limit reached, guides left unaligned), with and without a balanced row; and the second and later guides of a leaf are handed to it smaller than it measured them."
  },
  {
   "property": "C88",
   "status": "partial",
   "theorems": [
    "C88_parser_terminates",
    "C88_documented_sheets_are_accepted",
    "C88_parser_is_exact",
    "C88_grammar_is_unambiguous",
    "C88_text_of_sheets",
    "C88_only_documented_sheets_refuted",
    "C88_stray_comment_refuted"
   ],
   "note": "Every documented text is accepted with exactly its calls, and the accepted language is characterised exactly; refuted: a bit more than the documented grammar is accepted (an `unlink` followed by nothing, a comment before nothing at the end of a section, a relate or the text)."
  },
  {
   "property": "C89",
   "status": "partial",
   "theorems": [
    "C89_parser_terminates",
    "C89_parser_is_exact",
    "C89_documented_layouts_are_accepted_partial",
    "C89_calls_are_unambiguous",
    "C89_text_of_layouts",
    "C89_documented_layouts_are_accepted_refuted"
   ],
   "note": "The language and the calls are characterised exactly, and documented layouts whose relates have two relations are announced as written; refuted for three and more relations: the third gets the names (and missing comments) of the first put before its own, because only its expression is cleared."
  },
  {
   "property": "C90",
   "status": "partial",
   "theorems": [
    "C90_calls_before_an_error_of_a_sheet",
    "C90_calls_before_an_error_of_a_layout",
    "C90_a_refused_text_makes_no_calls_refuted"
   ],
   "note": "The calls before an error are characterised exactly; refuted: they are not undone, a refused text announces what came before the error."
  },
  {
   "property": "C91",
   "status": "partial",
   "theorems": [
    "C91_tokens",
    "C91_tokens_are_functional",
    "C91_putback",
    "C91_in_bounds_partial",
    "C91_unclosed_value_overruns_refuted"
   ],
   "note": "The tokens are characterised exactly for every buffer; in-bounds reading and progress proved where no attribute value lacks its closing quote; refuted otherwise: first_m goes one past last_m and the next token is read from outside the buffer."
  },
  {
   "property": "C92",
   "status": "partial",
   "theorems": [
    "C92_map",
    "C92_insert_range",
    "C92_comparisons",
    "C92_count_collisions_refuted",
    "C92_count_collisions_partial"
   ],
   "note": "Everything is proved but count_collisions, which is refuted: it compares the addresses of the values, not their text."
  },
  {
   "property": "C93",
   "status": "partial",
   "theorems": [
    "C93_parse_content_iff",
    "C93_more_fuel",
    "C93_unambiguous",
    "C93_safe_and_terminating_partial",
    "C93_accepts_well_formed",
    "C93_unclosed_value_refuted",
    "C93_reparse_never_ends_refuted"
   ],
   "note": "The language, the output and the calls are characterised exactly (sound, complete, unambiguous); never outside the buffers and terminating is proved under conditions (attribute values closed, answers that are ranges, nothing handed back for parsing) and refuted without them."
  },
  {
   "property": "C94",
   "status": "partial",
   "theorems": [
    "C94_calls",
    "C94_value_partial",
    "C94_value_after_comment_refuted",
    "C94_echo"
   ],
   "note": "The calls are characterised exactly; the value argument is as documented when the children do not begin with a comment, refuted when they do (text is lost, or the range is not one)."
  },
  {
   "property": "C95",
   "status": "partial",
   "theorems": [
    "C95_document_sound",
    "C95_document_complete",
    "C95_sequence_sound",
    "C95_sequence_complete",
    "C95_document_refuted",
    "C95_sequence_refuted"
   ],
   "note": "Soundness and completeness against the described language; refuted: leading text, a missing root, trailing text are accepted silently, a comment or leading white space ends a sequence of elements."
  },
  {
   "property": "C96",
   "status": "partial",
   "theorems": [
    "C96_text",
    "C96_round_trip",
    "C96_text_identifies",
    "C96_result_is_legal",
    "C96_short_texts_refuted"
   ],
   "note": "Text, reading and the round trip proved for every identifier; refuted: a string with fewer than eleven hexadecimal digits makes the constructor use uninitialised variables. c_str() (a thread local buffer) is not modelled."
  },
  {
   "property": "C97",
   "status": "proved",
   "theorems": [
    "C97_order_is_the_order_of_the_texts",
    "C97_strict_total_order"
   ],
   "note": ""
  },
  {
   "property": "C98",
   "status": "partial",
   "theorems": [
    "C98_name_based_partial",
    "C98_version_and_variant",
    "C98_long_names_refuted",
    "C98_little_endian_mac_refuted"
   ],
   "note": "Proved for names of fewer than 65536 bytes; refuted for longer names (the length is cast to uint16_t) and on little endian Macs (no byte swap)."
  },
  {
   "property": "C99",
   "status": "partial",
   "theorems": [
    "C99_one_thread_partial",
    "C99_threads_partial",
    "C99_different_nodes",
    "C99_unbounded_refuted",
    "C99_two_threads_refuted"
   ],
   "note": "Proved: one thread, any 2^30-2^16 consecutive calls; any threads, fewer than 2^16 calls; threads with different nodes, always. Refuted without the bounds, the second with 65537 calls of two threads (the clock sequence is not advanced when the time stamp is equal). get_current_time is taken as atomic although the code does not lock it."
  },
  {
   "property": "C100",
   "status": "proved",
   "theorems": [
    "C100_any_regular_is_a_value",
    "C100_wrong_cast_changes_nothing",
    "C100_equal_iff_same_value"
   ],
   "note": ""
  },
  {
   "property": "C101",
   "status": "partial",
   "theorems": [
    "C101_moved_from_can_be_replaced_partial",
    "C101_moved_from_is_not_a_value_refuted"
   ],
   "note": "Proved: destroying, assigning, setting, swapping and moving a moved-from variable work after every history. Refuted: copying, comparing or casting a moved-from any_regular_t that held a remote type follows a null pointer although type_info still names the type."
  },
  {
   "property": "C102",
   "status": "partial",
   "theorems": [
    "C102_a_throw_changes_nothing_partial",
    "C102_assign_refuted",
    "C102_throwing_move_leaks_refuted"
   ],
   "note": "Proved: nothing is ever undefined in the modelled statements and every statement in `strong` that throws leaves everything as it was. Refuted for the rest: assign(T) of a remote type destroys the old value first, and new_move loses the block if the element's move constructor throws."
  },
  {
   "property": "C103",
   "status": "partial",
   "theorems": [
    "C103_integers_come_back_partial",
    "C103_equality_is_numeric_partial",
    "C103_bad_cast_iff",
    "C103_narrowing_refuted"
   ],
   "note": "Proved for the integer types of at most 32 bits (and each 64-bit integer with its own type), and bad_cast exactly when the promoted types differ. Refuted: reading 100000 as int16 is an undefined conversion, not bad_cast; 64-bit integers are not promoted, so 1L and 1 are different."
  },
  {
   "property": "C104",
   "status": "proved",
   "theorems": [
    "C104_no_leaks",
    "C104_small_values_are_kept_inside"
   ],
   "note": ""
  },
  {
   "property": "C105",
   "status": "partial",
   "theorems": [
    "C105_poly_is_a_value_partial",
    "C105_assign_poly_refuted",
    "C105_assign_to_moved_from_refuted"
   ],
   "note": "Proved for every program that does not assign a poly to itself with assign() nor assign a value to a moved-from poly of the same remote type. Both exceptions are refuted, and so is the strong guarantee for assign(poly)."
  },
  {
   "property": "C106",
   "status": "partial",
   "theorems": [
    "C106_decrement_undoes_increment_partial",
    "C106_end_refuted"
   ],
   "note": "Proved for all adaptors, for the filtered range for iterators obtained by incrementing begin(). Refuted for the end iterator filter_fullorder_range returns: stepping back from it does not filter."
  },
  {
   "property": "C107",
   "status": "proved",
   "theorems": [
    "C107_lookup",
    "C107_lookup_distinct",
    "C107_names_are_table_keys"
   ],
   "note": ""
  },
  {
   "property": "C108",
   "status": "proved",
   "theorems": [
    "C108_effect",
    "C108_accepted",
    "C108_effect_determined",
    "C108_idempotent"
   ],
   "note": ""
  },
  {
   "property": "C109",
   "status": "partial",
   "theorems": [
    "C109_never_undefined_partial",
    "C109_balanced_guides_are_suppressed_partial",
    "C109_row_unsuppresses_balanced_guide_refuted",
    "C109_short_margin_refuted",
    "C109_spacing_after_empty_array_refuted",
    "C109_throw_leaves_half_refuted"
   ],
   "note": "Partial: proved that in-bounds parameters (numbers that are ints, margin arrays with 4 members, a spacing vector with 2) never lead to undefined behaviour and that balanced guides are suppressed unless a row is asked for without a guide mask. Refuted: short margin arrays and out-of-range numbers are undefined behaviour; a spacing number after an empty spacing array writes outside the vector; a row without a guide mask un-suppresses a balanced baseline; a throw leaves attributes half changed."
  },
  {
   "property": "C110",
   "status": "partial",
   "theorems": [
    "C110_layout_variables_partial",
    "C110_before_initialization_refuted"
   ],
   "note": "Partial: proved once the tables are initialized. Refuted before bind_layout or apply_layout_parameters has run: the function dereferences a null pointer."
  },
  {
   "property": "C111",
   "status": "partial",
   "theorems": [
    "C111_numbers_refuted",
    "C111_names_refuted",
    "C111_text",
    "C111_accepted"
   ],
   "note": "Proved for values whose numbers convert to std::int64_t and whose names, keys and printed doubles contain no '<', '>' or '&' (all strings, any nesting, distinct keys). Refuted otherwise: a double outside the 64 bit range, an infinity or a NaN is converted (undefined); names are not escaped, and the library's parser refuses the text."
  },
  {
   "property": "C112",
   "status": "partial",
   "theorems": [
    "C112_text_identifies_partial",
    "C112_canonical",
    "C112_doubles_refuted",
    "C112_other_values_refuted"
   ],
   "note": "Proved for values built of 64 bit integers, strings, names, booleans, empty, arrays and dictionaries. Refuted for other doubles (told apart only as far as printed) and for other types (only the type name is written)."
  },
  {
   "property": "C113",
   "status": "partial",
   "theorems": [
    "C113_javascript_reads_partial",
    "C113_pdf_reads_partial",
    "C113_javascript_identifies_partial",
    "C113_pdf_identifies_partial",
    "C113_javascript_refuted",
    "C113_pdf_refuted",
    "C113_numbers_refuted"
   ],
   "note": "Proved for values whose strings, names and keys need no escaping: JavaScript strings and names without quote, backslash or line break and identifier keys; PDF strings without parentheses or backslash, names and keys of regular characters; and numbers that convert to 64 bit integers and are either integers or print as decimals that read back. The text parses, under an independently written reader, to the same value whatever follows it, and so equal texts mean equal values. Refuted without those conditions: neither serializer escapes anything, so ['a\\', \\'b'] and ['a','b'] have one text (likewise (a) (b) in PDF), and a NaN, infinite or out-of-range number is converted to int64, which is undefined."
  },
  {
   "property": "C114",
   "status": "proved",
   "theorems": [
    "C114_layout",
    "C114_canonical"
   ],
   "note": ""
  },
  {
   "property": "C115",
   "status": "proved",
   "theorems": [
    "C115_external_model",
    "C115_monitor_hears",
    "C115_only_monitors_hear",
    "C115_names_are_ordered"
   ],
   "note": ""
  },
  {
   "property": "C116",
   "status": "partial",
   "theorems": [
    "C116_message",
    "C116_trace",
    "C116_caret_partial",
    "C116_caret_refuted",
    "C116_caret_at_the_end",
    "C116_no_place_refuted"
   ],
   "note": "Proved: the whole layout of the message, the trace through any number of rethrows, trimming of the line (whose decomposition is unique) and the caret when the position is at or before the first character of the line, or unknown. Refuted: for every position after the first character the caret stands one column to the left of the reported one; and when memory for the position is not available the exception has no position, and formatting it uses front() of an empty vector."
  },
  {
   "property": "C117",
   "status": "proved",
   "theorems": [
    "C117_get_line",
    "C117_get_line_total",
    "C117_lines"
   ],
   "note": ""
  },
  {
   "property": "C118",
   "status": "partial",
   "theorems": [
    "C118_replacement",
    "C118_replacement_by_text",
    "C118_one_result",
    "C118_first_id_refuted",
    "C118_empty_elements_lost_refuted"
   ],
   "note": "Fully proved as the code has it (id of the last xstr element; empty elements dropped from the replacement); the two places where that differs from what is meant are refuted by counterexamples."
  },
  {
   "property": "C119",
   "status": "partial",
   "theorems": [
    "C119_glossary_partial",
    "C119_found",
    "C119_best_replacement",
    "C119_repeated_refuted"
   ],
   "note": "Proved for every glossary text of elements followed by text, whose elements' content does not begin with a comment. That a repeated string is stored once is refuted: the test compares addresses."
  },
  {
   "property": "C120",
   "status": "partial",
   "theorems": [
    "C120_strips_partial",
    "C120_one_result",
    "C120_glossary_never_consulted_refuted"
   ],
   "note": "Stripping is proved for every text whose elements' content does not begin with a comment. Consulting the glossary is refuted: closest_match is compiled out."
  },
  {
   "property": "C121",
   "status": "proved",
   "theorems": [
    "C121_what_loads",
    "C121_only_what_is_declared_loads",
    "C121_every_text_is_answered",
    "C121_names_are_unique",
    "C121_a_refused_text",
    "C121_external_needs_a_model"
   ],
   "note": ""
  },
  {
   "property": "C122",
   "status": "proved",
   "theorems": [
    "C122_what_loads",
    "C122_only_what_is_declared_loads",
    "C122_sheet_first"
   ],
   "note": ""
  },
  {
   "property": "C123",
   "status": "proved",
   "theorems": [
    "C123_update_is_defined",
    "C123_calls_are_defined",
    "C123_inspect_is_defined",
    "C123_single_terms_are_defined",
    "C123_too_few_values"
   ],
   "note": ""
  },
  {
   "property": "C124",
   "status": "proved",
   "theorems": [
    "C124_max_adjacent_difference",
    "C124_iota",
    "C124_filter",
    "C124_filter_output",
    "C124_find_match",
    "C124_for_each_position",
    "C124_other_of"
   ],
   "note": ""
  },
  {
   "property": "C125",
   "status": "proved",
   "theorems": [
    "C125_bitwise",
    "C125_closed",
    "C125_bits_determine",
    "C125_set_laws",
    "C125_exact",
    "C125_modular",
    "C125_defined",
    "C125_promoted_product",
    "C125_inc_dec"
   ],
   "note": ""
  }
 ]
}