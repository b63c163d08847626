{
 "claims": [
  {
   "property": "C01",
   "status": "proved",
   "theorems": [
    "C01_stream_finite",
    "C01_stream_infinite",
    "C01_exhausted_iterator_throws",
    "C01_enumeration_unique"
   ],
   "note": ""
  },
  {
   "property": "C02",
   "status": "proved",
   "theorems": [
    "C02_map_pathwise",
    "C02_flatMap_pathwise",
    "C02_mapShrinkable_pathwise",
    "C02_paths_determine",
    "C02_map_identity",
    "C02_map_composition"
   ],
   "note": ""
  },
  {
   "property": "C03",
   "status": "proved",
   "theorems": [
    "C03_filter_exact",
    "C03_filter_sound"
   ],
   "note": ""
  },
  {
   "property": "C04",
   "status": "proved",
   "theorems": [
    "C04_filter_tolerance_exact",
    "C04_filter_tolerance_throws",
    "C04_filter_tolerance_sound",
    "C04_filter_tolerance_keeps_plain",
    "C04_filter_tolerance_zero",
    "C04_rejected_replaced"
   ],
   "note": ""
  },
  {
   "property": "C05",
   "status": "proved",
   "theorems": [
    "C05_concat_exact",
    "C05_concat_values",
    "C05_concatStatic",
    "C05_andThen_exact",
    "C05_andThenStatic",
    "C05_take_exact",
    "C05_take_negative"
   ],
   "note": ""
  },
  {
   "property": "C06",
   "status": "proved",
   "theorems": [
    "C06_signed_shrink",
    "C06_signed_shrink_once",
    "C06_signed_shrink_order"
   ],
   "note": ""
  },
  {
   "property": "C07",
   "status": "proved",
   "theorems": [
    "C07_unsigned_shrink",
    "C07_unsigned_shrink_once",
    "C07_unsigned_shrink_order"
   ],
   "note": ""
  },
  {
   "property": "C08",
   "status": "proved",
   "theorems": [
    "C08_generated_in_range",
    "C08_every_value_possible",
    "C08_char_straddling_zero_undefined",
    "C08_arbitrary_char_refuted"
   ],
   "note": ""
  },
  {
   "property": "C09",
   "status": "proved",
   "theorems": [
    "C09_shrinks_in_range_complete",
    "C09_reachable_values"
   ],
   "note": ""
  },
  {
   "property": "C10",
   "status": "proved",
   "theorems": [
    "C10_interval",
    "C10_inRange",
    "C10_natural",
    "C10_nonNegative",
    "C10_integers",
    "C10_integers_end_overflow_refuted",
    "C10_integers_wrap_refuted"
   ],
   "note": ""
  },
  {
   "property": "C11",
   "status": "proved",
   "theorems": [
    "C11_tables_representable",
    "C11_index_in_table",
    "C11_every_entry_possible",
    "C11_extremes_listed",
    "C11_table",
    "C11_char_extremes_refuted"
   ],
   "note": ""
  },
  {
   "property": "C12",
   "status": "proved",
   "theorems": [
    "C12_membership_enumerates",
    "C12_membership_positions_once",
    "C12_min_above_size_unchecked"
   ],
   "note": ""
  },
  {
   "property": "C13",
   "status": "proved",
   "theorems": [
    "C13_list_sound",
    "C13_list_deletions_complete",
    "C13_length_only"
   ],
   "note": ""
  },
  {
   "property": "C14",
   "status": "proved",
   "theorems": [
    "C14_steps_reduce",
    "C14_shrinking_ends",
    "C14_shrinkMid_unreachable",
    "C14_shrinkMid_broken"
   ],
   "note": ""
  },
  {
   "property": "C15",
   "status": "proved",
   "theorems": [
    "C15_membership_leaves",
    "C15_elements_shrunk_at_leaves",
    "C15_full_length_never_shrunk",
    "C15_only_at_min_size_refuted"
   ],
   "note": ""
  },
  {
   "property": "C16",
   "status": "proved",
   "theorems": [
    "C16_bulk_candidates",
    "C16_shrinkBulk_total"
   ],
   "note": ""
  },
  {
   "property": "C17",
   "status": "proved",
   "theorems": [
    "C17_set_subsets_once"
   ],
   "note": ""
  },
  {
   "property": "C18",
   "status": "proved",
   "theorems": [
    "C18_map_prefixes"
   ],
   "note": ""
  },
  {
   "property": "C19",
   "status": "proved",
   "theorems": [
    "C19_string_enumerates",
    "C19_string_infix",
    "C19_min_size_refuted",
    "C19_candidates_differ_refuted",
    "C19_min_above_size"
   ],
   "note": ""
  },
  {
   "property": "C20",
   "status": "proved",
   "theorems": [
    "C20_shrinks",
    "C20_shrinks_valid",
    "C20_minimum_refuted"
   ],
   "note": "All four encodings, all texts whose encoding is below 2^31 bytes (offsets are ints). Shrinking below minSize refuted as for C19."
  },
  {
   "property": "C21",
   "status": "proved",
   "theorems": [
    "C21_tuple_product",
    "C21_tuple_values",
    "C21_pair_product",
    "C21_pair_values"
   ],
   "note": ""
  },
  {
   "property": "C22",
   "status": "proved",
   "theorems": [
    "C22_vector",
    "C22_vector_total",
    "C22_string",
    "C22_default_sizes",
    "C22_setSize_exact",
    "C22_max_truncated",
    "C22_large_sizes_refuted",
    "C22_reversed_undefined"
   ],
   "note": ""
  },
  {
   "property": "C23",
   "status": "proved",
   "theorems": [
    "C23_set",
    "C23_map",
    "C23_too_few_values_hang",
    "C23_enough_values_finish"
   ],
   "note": ""
  },
  {
   "property": "C24",
   "status": "proved",
   "theorems": [
    "C24_filter_returns",
    "C24_filter_deterministic",
    "C24_filter_sound",
    "C24_filter_total",
    "C24_filter_never_returns"
   ],
   "note": ""
  },
  {
   "property": "C25",
   "status": "proved",
   "theorems": [
    "C25_rejects",
    "C25_weights",
    "C25_first_accepted",
    "C25_acceptance_counts",
    "C25_nan_weight_accepted",
    "C25_no_generators_undefined"
   ],
   "note": ""
  },
  {
   "property": "C26",
   "status": "proved",
   "theorems": [
    "C26_elementOf_only_listed",
    "C26_elementOf_each",
    "C26_elementOf_rejects",
    "C26_just",
    "C26_lazy"
   ],
   "note": ""
  },
  {
   "property": "C27",
   "status": "proved",
   "theorems": [
    "C27_dependency_sound",
    "C27_dependency_related",
    "C27_dependency_complete",
    "C27_chain_related",
    "C27_chainMore_related",
    "C27_chain_complete",
    "C27_chainMore_complete",
    "C27_shrinks_repeatable_refuted"
   ],
   "note": ""
  },
  {
   "property": "C28",
   "status": "proved",
   "theorems": [
    "C28_derive_sound",
    "C28_derive_property",
    "C28_derive_complete",
    "C28_aggregate_sound",
    "C28_aggregate_invariant",
    "C28_aggregate_draws"
   ],
   "note": ""
  },
  {
   "property": "C29",
   "status": "proved",
   "theorems": [
    "C29_accumulate_sound",
    "C29_accumulate_size",
    "C29_accumulate_linked",
    "C29_accumulate_draws"
   ],
   "note": ""
  },
  {
   "property": "C30",
   "status": "proved",
   "theorems": [
    "C30_transform",
    "C30_transform_invariant",
    "C30_transform_failures"
   ],
   "note": ""
  },
  {
   "property": "C31",
   "status": "proved",
   "theorems": [
    "C31_intervals_sound",
    "C31_uintervals_sound",
    "C31_empty_interval_rejected",
    "C31_wide_interval_undefined",
    "C31_full_unsigned_range_rejected",
    "C31_legal_intervals_accepted_refuted"
   ],
   "note": ""
  },
  {
   "property": "C32",
   "status": "proved",
   "theorems": [
    "C32_true",
    "C32_false",
    "C32_true_on",
    "C32_false_on",
    "C32_true_back",
    "C32_false_back",
    "C32_general",
    "C32_nonstd"
   ],
   "note": ""
  },
  {
   "property": "C33",
   "status": "proved",
   "theorems": [
    "C33_replay",
    "C33_replay_fails",
    "C33_replay_one_argument",
    "C33_replay_refuted"
   ],
   "note": ""
  },
  {
   "property": "C34",
   "status": "proved",
   "theorems": [
    "C34_terminates",
    "C34_result",
    "C34_minimal",
    "C34_bounded",
    "C34_still_fails"
   ],
   "note": ""
  },
  {
   "property": "C35",
   "status": "proved",
   "theorems": [
    "C35_signals_taken",
    "C35_simplest_discards_refuted"
   ],
   "note": ""
  },
  {
   "property": "C36",
   "status": "proved",
   "theorems": [
    "C36_attribution",
    "C36_leak",
    "C36_hooks"
   ],
   "note": ""
  },
  {
   "property": "C37",
   "status": "proved",
   "theorems": [
    "C37_matrix",
    "C37_product",
    "C37_order",
    "C37_calls",
    "C37_empty",
    "C37_long_list"
   ],
   "note": ""
  },
  {
   "property": "C38",
   "status": "proved",
   "theorems": [
    "C38_example",
    "C38_example_hooks"
   ],
   "note": ""
  },
  {
   "property": "C39",
   "status": "proved",
   "theorems": [
    "C39_scope_restores",
    "C39_record_innermost",
    "C39_no_context_throws",
    "C39_counts_exact",
    "C39_failures_exact",
    "C39_summary"
   ],
   "note": ""
  },
  {
   "property": "C40",
   "status": "proved",
   "theorems": [
    "C40_time_limit",
    "C40_inputs",
    "C40_repeatable",
    "C40_last_setting"
   ],
   "note": ""
  },
  {
   "property": "C41",
   "status": "proved",
   "theorems": [
    "C41_hooks",
    "C41_hooks_shrinking",
    "C41_counts"
   ],
   "note": ""
  },
  {
   "property": "C42",
   "status": "proved",
   "theorems": [
    "C42_property",
    "C42_forAll"
   ],
   "note": ""
  },
  {
   "property": "C43",
   "status": "proved",
   "theorems": [
    "C43_run",
    "C43_order",
    "C43_simple",
    "C43_go",
    "C43_go_false",
    "C43_second_go_refuted",
    "C43_second_go_same"
   ],
   "note": "One run is characterised exactly (C43_run), also as seen by an observer of the calls (C43_order); go() for world-independent user code with unset hooks (C43_go, C43_go_false). A second go() on the same property is broken because go() moves its generator and model factory out (C43_second_go_refuted). Objects and models are values; aliasing through pointers is part of the user world."
  },
  {
   "property": "C44",
   "status": "proved",
   "theorems": [
    "C44_last_setting",
    "C44_wiring",
    "C44_defaults",
    "C44_no_cleanup",
    "C44_cleanup_refuted"
   ],
   "note": "Wiring as the code has it: a configured clean-up hook replaces the start-up hook and no clean-up ever runs (C44_wiring, C44_no_cleanup); the intended behaviour is refuted (C44_cleanup_refuted)."
  },
  {
   "property": "C45",
   "status": "proved",
   "theorems": [
    "C45_run",
    "C45_run_no_model",
    "C45_positions",
    "C45_defaults",
    "C45_go"
   ],
   "note": "Both class-based property functions are characterised exactly, with and without a model, including the fall-backs of members that are not overridden."
  },
  {
   "property": "C46",
   "status": "proved",
   "theorems": [
    "C46_own_slot",
    "C46_in_log",
    "C46_complete",
    "C46_class",
    "C46_class_limit",
    "C46_class_refuted"
   ],
   "note": "For every schedule of both engines: own slots, written once; function-based in bounds and complete at return with the log's contents; class-based in bounds up to 5000 rear actions, and a witness writing past the end with 5001 (C46_class_refuted); no run with more returns (C46_class_limit)."
  },
  {
   "property": "C47",
   "status": "proved",
   "theorems": [
    "C47_phases",
    "C47_threads",
    "C47_all",
    "C47_serial",
    "C47_check",
    "C47_actions",
    "C47_can_finish"
   ],
   "note": "Phases, per-thread prefixes at any time, completeness at return, check last and once, serial case, and that no reachable state is a deadlock. Memory is sequentially consistent; actions are interleaved at the granularity of their steps."
  },
  {
   "property": "C48",
   "status": "proved",
   "theorems": [
    "C48_check_model",
    "C48_copy",
    "C48_private",
    "C48_class_refuted"
   ],
   "note": "Function-based as stated (C48_check_model, C48_copy, C48_private). In the class-based engine the model is shared: C48_class_refuted."
  },
  {
   "property": "C49",
   "status": "proved",
   "theorems": [
    "C49_printed",
    "C49_thread_order",
    "C49_real_time",
    "C49_class"
   ],
   "note": "Printed sequence of the function-based engine: per-thread order and real-time order. The class-based engine prints thread numbers in the order of ends (C49_class)."
  },
  {
   "property": "C50",
   "status": "proved",
   "theorems": [
    "C50_mutual_exclusion",
    "C50_no_failure",
    "C50_states",
    "C50_kept",
    "C50_returned",
    "C50_try_gives_up",
    "C50_wait_free",
    "C50_try_alone",
    "C50_acquire_alone",
    "C50_alone_is_execution",
    "C50_copy",
    "C50_free_of_free_refuted",
    "C50_free_by_other_refuted",
    "C50_free_of_minus_one_refuted"
   ],
   "note": "Interleavings of the atomic accesses, sequentially consistent as in the code, for any number of slots and of threads (created at any time) that call acquire, tryAcquire and unacquire and may hand indices over. Refuted for clients that give back what they do not own: the call throws, frees the slot under its owner, or is outside the array (index -1)."
  },
  {
   "property": "C51",
   "status": "proved",
   "theorems": [
    "C51_frame",
    "C51_call",
    "C51_value",
    "C51_error",
    "C51_long_error_refuted",
    "C51_full_pipe_refuted",
    "C51_exit_refuted",
    "C51_killed",
    "C51_ways",
    "C51_short_read_refuted"
   ],
   "note": "C51_call gives the outcome for every way the child can end. The parts of the claim that fail are the theorems ending in _refuted: texts over 100 bytes, full pipe, exit in the child, short reads."
  },
  {
   "property": "C52",
   "status": "proved",
   "theorems": [
    "C52_encode",
    "C52_encode_rejects",
    "C52_decode",
    "C52_valid",
    "C52_charsize",
    "C52_unique",
    "C52_long_undefined"
   ],
   "note": "Validation for strings below 2^31 bytes; 2^31 characters or more overflow the int counter (proved)."
  },
  {
   "property": "C53",
   "status": "proved",
   "theorems": [
    "C53_encode",
    "C53_encode_rejects",
    "C53_decode",
    "C53_valid",
    "C53_charsize",
    "C53_unique",
    "C53_long_undefined"
   ],
   "note": "As C52, for CESU-8."
  },
  {
   "property": "C54",
   "status": "proved",
   "theorems": [
    "C54_encode",
    "C54_encode_rejects",
    "C54_encode_exact_refuted",
    "C54_decode",
    "C54_decode_safe",
    "C54_decode_exact_refuted",
    "C54_valid_be",
    "C54_valid_le",
    "C54_charsize_be",
    "C54_charsize_le",
    "C54_unique"
   ],
   "note": "Exact set of codes accepted by encode; encode and decode accept non-scalar values / unpaired surrogates (refuted exactness)."
  },
  {
   "property": "C55",
   "status": "proved",
   "theorems": [
    "C55_generates",
    "C55_rejects",
    "C55_only_scalars",
    "C55_utf16_rejects_refuted",
    "C55_unicode",
    "C55_unicode_safe",
    "C55_unicode_covers"
   ],
   "note": "Maximum sizes up to (2^31-3)/6 characters; static generator object of UnicodeGen is stateless."
  },
  {
   "property": "C56",
   "status": "proved",
   "theorems": [
    "C56_dump",
    "C56_dump_injective",
    "C56_utf8_text",
    "C56_cesu8_text",
    "C56_utf16be_text",
    "C56_utf16le_text",
    "C56_utf8_total",
    "C56_cesu8_total",
    "C56_utf8_injective",
    "C56_cesu8_injective",
    "C56_utf16be_defined",
    "C56_utf16le_defined",
    "C56_utf16_odd_refuted",
    "C56_utf16_text_refuted",
    "C56_show_utf8",
    "C56_show_cesu8",
    "C56_show_utf16",
    "C56_show_chars"
   ],
   "note": ""
  },
  {
   "property": "C57",
   "status": "proved",
   "theorems": [
    "C57_bool_shrink",
    "C57_bool_generated_shrink",
    "C57_probability_one",
    "C57_coin_exact",
    "C57_coin_monotone",
    "C57_probability_zero",
    "C57_probability_zero_can_be_true_refuted",
    "C57_out_of_range_threshold_undefined"
   ],
   "note": ""
  },
  {
   "property": "C58",
   "status": "proved",
   "theorems": [
    "C58_tree",
    "C58_special",
    "C58_finite",
    "C58_ends",
    "C58_defined",
    "C58_undefined_refuted",
    "C58_grows_refuted",
    "C58_repeats_refuted",
    "C58_bits",
    "C58_all_values",
    "C58_generated",
    "C58_every_value"
   ],
   "note": "IEEE 754 arithmetic by the standard library's SpecFloat (axiom free). The integer shrinking step of the code never contributes a candidate; the reinterpret_cast of the bits is taken at face value."
  },
  {
   "property": "C59",
   "status": "proved",
   "theorems": [
    "C59_nullable",
    "C59_nullable_shrink",
    "C59_nullable_total",
    "C59_null_possible",
    "C59_value_possible",
    "C59_shared_ptr",
    "C59_nullable_configured_refuted",
    "C59_shared_ptr_configured_refuted"
   ],
   "note": "Sharing of the pointed-to value with the shrinkable is not modelled. The *_configured_refuted theorems record that a configured element generator is ignored."
  },
  {
   "property": "C60",
   "status": "proved",
   "theorems": [
    "C60_decimal",
    "C60_total",
    "C60_injective",
    "C60_arguments",
    "C60_nested_null_refuted",
    "C60_string_set_refuted"
   ],
   "note": ""
  },
  {
   "property": "C61",
   "status": "proved",
   "theorems": [
    "C61_verdict",
    "C61_stops",
    "C61_runs",
    "C61_real",
    "C61_config",
    "C61_settings",
    "C61_runs_refuted",
    "C61_expectations_refuted",
    "C61_terminates",
    "C61_rear_refuted",
    "C61_never_ends",
    "C61_replay"
   ],
   "note": "Both APIs. The individual runs are those of C46-C49 (C61_real). Refuted parts: C61_expectations_refuted, C61_rear_refuted, C61_runs_refuted; never-ending discards: C61_never_ends. Objects are values here: the initial generator is taken to give a new object every time; C65 says when it does."
  },
  {
   "property": "C62",
   "status": "proved",
   "theorems": [
    "C62_grammar",
    "C62_precedence",
    "C62_unambiguous",
    "C62_true",
    "C62_short_circuit",
    "C62_compare",
    "C62_loose_first",
    "C62_compare_refuted",
    "C62_cond_refuted",
    "C62_once_refuted",
    "C62_expect_false_refuted",
    "C62_assert_false",
    "C62_assert_false_loose",
    "C62_assert_false_refuted",
    "C62_streq",
    "C62_streq_undefined",
    "C62_streq2",
    "C62_streq2_same",
    "C62_streq2_refuted"
   ],
   "note": "PROP_ASSERT_EQ/NE/LT/GT/LE/GE do not compile (a std::string is passed as const char*) and are not modelled. Refuted parts: C62_expect_false_refuted, C62_compare_refuted, C62_cond_refuted, C62_once_refuted, C62_assert_false_refuted, C62_streq2_refuted. The parser used is proved sound and complete for the grammar, and the grammar unambiguous."
  },
  {
   "property": "C63",
   "status": "proved",
   "theorems": [
    "C63_meaning",
    "C63_variable",
    "C63_time",
    "C63_one_seed",
    "C63_replay_iff",
    "C63_replay",
    "C63_replay_run",
    "C63_replay_refuted",
    "C63_set_stateful"
   ],
   "note": "The replay of every printed seed is refuted from 2^63 on; proved as an equivalence. The program changing the variable while it runs (dangling pointer) is not modelled."
  },
  {
   "property": "C64",
   "status": "proved",
   "theorems": [
    "C64_value",
    "C64_throws",
    "C64_generators",
    "C64_reported"
   ],
   "note": "Pointer parameters (ambiguous overload, does not compile) and objects keeping references to their arguments (dangling) are not modelled."
  },
  {
   "property": "C65",
   "status": "proved",
   "theorems": [
    "C65_copies",
    "C65_constructor_refuted",
    "C65_transformer_refuted",
    "C65_new",
    "C65_same",
    "C65_place_refuted"
   ],
   "note": "Refuted as it stands for just/elementOf in concurrent tests and for changing transformers/constructors (C65_place_refuted, C65_transformer_refuted, C65_constructor_refuted); proved under the conditions named. Values containing pointers are not modelled."
  },
  {
   "property": "C66",
   "status": "proved",
   "theorems": [
    "C66_search",
    "C66_calls",
    "C66_boundary",
    "C66_one"
   ],
   "note": "C66_search gives the exact sequence of calls for each position whose shrinks do not use the engine; C66_calls and C66_boundary instantiate it to generated integers; C66_one is the one-argument case end to end. Ranges of char that straddle zero are excluded (undefined behaviour, see C04)."
  },
  {
   "property": "C67",
   "status": "proved",
   "theorems": [
    "C67_vector",
    "C67_vector_minimal",
    "C67_set",
    "C67_map",
    "C67_string",
    "C67_string_min",
    "C67_calls_set",
    "C67_calls_map",
    "C67_calls_string",
    "C67_string_minimal_refuted",
    "C67_map_minimal_refuted"
   ],
   "note": "Element generators that use the engine while shrinking are outside (their trees are not finite trees). Refuted: C67_string_minimal_refuted, C67_map_minimal_refuted."
  },
  {
   "property": "C68",
   "status": "proved",
   "theorems": [
    "C68_chain_named",
    "C68_chain_value",
    "C68_bind",
    "C68_copy_apart",
    "C68_derived_apart",
    "C68_derived_sizes",
    "C68_generator_copies_share",
    "C68_reference_follows",
    "C68_reference_temporary",
    "C68_lifetime",
    "C68_repeat",
    "C68_regenerated",
    "C68_defaults",
    "C68_repeat_generator_refuted",
    "C68_regenerated_refuted"
   ],
   "note": "Generators of vectors, lists, strings, sets and maps and the user's callables; the other combinators keep their generators by value or in a Generator and are not part of the programs. A callable that is called again while running (a reference to itself) has no state of its own. Default sizes are one for all containers."
  },
  {
   "property": "C69",
   "status": "proved",
   "theorems": [
    "C69_value",
    "C69_ends",
    "C69_never",
    "C69_bounded_refuted",
    "C69_ends_refuted",
    "C69_shrinks",
    "C69_construct_no_shrinks",
    "C69_level",
    "C69_level_shrinks"
   ],
   "note": "The depth of calls is a number (fuel); the size of the C++ stack is not modelled. Probabilities of returning are in C85 and C87."
  },
  {
   "property": "C70",
   "status": "proved",
   "theorems": [
    "C70_pure_maps",
    "C70_pure_filters",
    "C70_pure_extensions",
    "C70_pure_search",
    "C70_map_calls",
    "C70_map_count",
    "C70_filter_calls",
    "C70_filter_plain_calls",
    "C70_map_fusion",
    "C70_map_throws",
    "C70_filter_unsteady",
    "C70_filter_plain_unsteady"
   ],
   "note": "The record of calls is exact (order and multiplicity). The property itself is a test with a yes/no answer here; its exceptions and output are in the runner properties."
  },
  {
   "property": "C71",
   "status": "proved",
   "theorems": [
    "C71_exact",
    "C71_shrink",
    "C71_general",
    "C71_true",
    "C71_false",
    "C71_map",
    "C71_throws",
    "C71_true_refuted",
    "C71_report_refuted",
    "C71_forever_refuted"
   ],
   "note": "C71_true_refuted, C71_report_refuted and C71_forever_refuted are the three witnesses of what goes wrong; C71_exact relates every run to the runner model."
  },
  {
   "property": "C72",
   "status": "proved",
   "theorems": [
    "C72_nearest",
    "C72_form",
    "C72_exact",
    "C72_integers",
    "C72_monotone",
    "C72_close",
    "C72_never_unique",
    "C72_special"
   ],
   "note": "Ostream output in its default state taken to be C's %g with precision 6 and exact decimal conversion; the sign of a NaN as printed by glibc. C72_never_unique is a finding: counterexamples of floating point type are reported with six digits only. The statement excludes subnormal values because some of them (5e-324) are told apart."
  },
  {
   "property": "C73",
   "status": "proved",
   "theorems": [
    "C73_near",
    "C73_monotone",
    "C73_all",
    "C73_all_refuted",
    "C73_almost",
    "C73_none",
    "C73_lines"
   ],
   "note": "Proved through RoundProof: binary_normalize, SFmul and SFdiv of the standard library round to nearest even with relative error at most 2^-53 in the normal range. C73_all_refuted: a percentage printed as 100 does not mean all."
  },
  {
   "property": "C74",
   "status": "proved",
   "theorems": [
    "C74_one",
    "C74_two",
    "C74_power_of_two",
    "C74_equal",
    "C74_equal_refused",
    "C74_three_refuted",
    "C74_two_refuted",
    "C74_weights",
    "C74_chance",
    "C74_share"
   ],
   "note": "C74_one, C74_two, C74_power_of_two: acceptance; C74_equal, C74_equal_refused: equal widths; C74_three_refuted, C74_two_refuted: the full statement that legal intervals are accepted is false; C74_weights, C74_chance: weights and coins of the intervals; C74_share: oneOf."
  },
  {
   "property": "C75",
   "status": "proved",
   "theorems": [
    "C75_integers",
    "C75_types",
    "C75_char_refuted",
    "C75_bool",
    "C75_floats",
    "C75_vector",
    "C75_string",
    "C75_set",
    "C75_map",
    "C75_pair",
    "C75_tuple",
    "C75_nullable",
    "C75_shared_ptr",
    "C75_transform",
    "C75_filter",
    "C75_one_of",
    "C75_element_of",
    "C75_intervals",
    "C75_unicode",
    "C75_encoded",
    "C75_dependency",
    "C75_derive",
    "C75_chain",
    "C75_aggregate",
    "C75_accumulate",
    "C75_construct",
    "C75_found"
   ],
   "note": "Sequences of random numbers are those of the replaying engine; that std::mt19937_64 gives a particular sequence for some seed is not claimed. Generators that try again (filter, oneOf, sets, maps) are given with any number of attempts from the least that can succeed."
  },
  {
   "property": "C76",
   "status": "proved",
   "theorems": [
    "C76_agrees",
    "C76_agrees_example",
    "C76_holds",
    "C76_times_out",
    "C76_falsified",
    "C76_verdict",
    "C76_steps_fail",
    "C76_seed",
    "C76_number",
    "C76_readback",
    "C76_avail",
    "C76_example",
    "C76_example_reports_refuted",
    "C76_example_silent",
    "C76_matrix"
   ],
   "note": "Texts of values and exceptions are parameters (wording). Runs from which an exception escapes are not covered (C71 covers exceptions during shrinking). C76_example_reports_refuted: a failing example need not be reported."
  },
  {
   "property": "C77",
   "status": "proved",
   "theorems": [
    "C77_operations",
    "C77_shrinkers",
    "C77_combinators",
    "C77_storing",
    "C77_vectors",
    "C77_wrong_elements",
    "C77_wrong_type",
    "C77_arguments",
    "C77_no_wrong_reads_refuted"
   ],
   "note": "C77_no_wrong_reads_refuted: the type of a generator is not checked where a GenFunction<T> is expected. The elements of a Stream (pointers to void as well) and the base-to-derived cast of its heads are not followed; user functions are taken to return what they declare."
  },
  {
   "property": "C78",
   "status": "proved",
   "theorems": [
    "C78_unique",
    "C78_unique_result",
    "C78_coin",
    "C78_bool",
    "C78_integer",
    "C78_integer_uniform",
    "C78_any_integer",
    "C78_any_value",
    "C78_char",
    "C78_transform",
    "C78_pair",
    "C78_tuple",
    "C78_vector",
    "C78_string",
    "C78_filter",
    "C78_oneOf",
    "C78_elementOf",
    "C78_intervals",
    "C78_nullable",
    "C78_arguments",
    "C78_forAll",
    "C78_detection"
   ],
   "note": "Probabilities are over plans: the decision tree of draws of a program, the same for every engine; C78_unique shows that two plans of one generator give the same probability. Draws are taken to be uniform on their range (what std::uniform_int_distribution promises over a uniform engine); that mt19937_64 is only pseudo-random is outside the model. Loops (filter, oneOf, discarded runs) are stated for every bound on the attempts. dependency, chain and floating-point generators are not covered."
  },
  {
   "property": "C79",
   "status": "proved",
   "theorems": [
    "C79_only_actions",
    "C79_phases",
    "C79_ordered",
    "C79_overlap",
    "C79_printed_order",
    "C79_adjacent",
    "C79_can_race",
    "C79_expect_refuted",
    "C79_class_refuted"
   ],
   "note": "Happens-before as in the C++ standard for sequentially consistent atomics, over the interleavings of the concurrency model. What user code touches is a parameter. C79_expect_refuted and C79_class_refuted show the two expectations that fail."
  },
  {
   "property": "C80",
   "status": "proved",
   "theorems": [
    "C80_integer",
    "C80_bool",
    "C80_just",
    "C80_pair",
    "C80_tuple",
    "C80_transform",
    "C80_oneOf",
    "C80_set",
    "C80_map",
    "C80_vector",
    "C80_orders",
    "C80_arguments",
    "C80_least",
    "C80_integers",
    "C80_trying",
    "C80_calls",
    "C80_filter_refuted",
    "C80_elements_refuted",
    "C80_upward_refuted"
   ],
   "note": "Compositional: minimising is proved for each generator and each combinator, then for argument lists (C80_arguments). Search is the relation scan of C66. Strings (C67: prefixes only), floating point numbers and dependent combinators are not covered."
  },
  {
   "property": "C81",
   "status": "proved",
   "theorems": [
    "C81_vector",
    "C81_decided",
    "C81_actions",
    "C81_actions_same",
    "C81_length",
    "C81_last_refuted",
    "C81_check_refuted",
    "C81_minimal",
    "C81_class",
    "C81_class_no_model"
   ],
   "note": "Function-based and class-based tests; any vector argument. Refuted parts have their own theorems with witnesses."
  },
  {
   "property": "C82",
   "status": "proved",
   "theorems": [
    "C82_worst",
    "C82_scan",
    "C82_pair",
    "C82_tuple",
    "C82_map",
    "C82_generators",
    "C82_filter",
    "C82_filter_tolerance_refuted",
    "C82_containers",
    "C82_encoded",
    "C82_oneOf",
    "C82_arguments",
    "C82_calls",
    "C82_run",
    "C82_run_plain",
    "C82_stateful",
    "C82_reached"
   ],
   "note": "C82_worst, C82_scan, C82_pair, C82_tuple, C82_map, C82_filter: longest searches of trees, exact for pairs, tuples and maps. C82_generators, C82_containers, C82_encoded, C82_oneOf: bounds of generators. C82_arguments, C82_calls, C82_run, C82_run_plain, C82_stateful: calls of the property. C82_reached: the bound is reached. Refuted: C82_filter_tolerance_refuted. Dependent generators are covered by C83; floating-point numbers are not covered."
  },
  {
   "property": "C83",
   "status": "proved",
   "theorems": [
    "C83_pure",
    "C83_dependent",
    "C83_aggregate",
    "C83_accumulate",
    "C83_arguments",
    "C83_calls",
    "C83_run"
   ],
   "note": "C83_pure: the same notion as in C82 for trees that do not draw. C83_dependent, C83_aggregate, C83_accumulate: bounds of generators. C83_arguments, C83_calls, C83_run: calls of the property."
  },
  {
   "property": "C84",
   "status": "proved",
   "theorems": [
    "C84_unique",
    "C84_pure",
    "C84_interval",
    "C84_vector",
    "C84_dependency",
    "C84_chain",
    "C84_chainMore",
    "C84_derive",
    "C84_aggregate",
    "C84_accumulate",
    "C84_argument",
    "C84_detection"
   ],
   "note": "Hypotheses: the generators obey plans (what is drawn, for values and for shrinks) and do not fail on values that occur (obeys V). Plans are given for integer intervals, vectors of them, and everything built with the dependent combinators; accumulate up to INT64_MAX elements, aggregate below UINT64_MAX."
  },
  {
   "property": "C85",
   "status": "proved",
   "theorems": [
    "C85_depth",
    "C85_returns",
    "C85_value",
    "C85_monotone",
    "C85_limit",
    "C85_one",
    "C85_two",
    "C85_wide",
    "C85_surely",
    "C85_default",
    "C85_level",
    "C85_mean_unique"
   ],
   "note": "Only this shape of recursion (a container of itself); for oneOf of a leaf and itself see C87. Findings: the documented generator overflows any stack sometimes; without setSize it almost never returns."
  },
  {
   "property": "C86",
   "status": "proved",
   "theorems": [
    "C86_go",
    "C86_class",
    "C86_class_no_model",
    "C86_steady",
    "C86_begins",
    "C86_never"
   ],
   "note": "Hypotheses: user code is tame (depends on its arguments only, leaves the world alone, does not discard or end a run early), no hooks, no time limit, the initial generator does not throw. Finding: the length of the function-based action lists cannot be set (a TODO in the source; only the static default of the list generator), so failures beyond 200 actions are out of reach."
  },
  {
   "property": "C87",
   "status": "proved",
   "theorems": [
    "C87_returns",
    "C87_rate",
    "C87_bound",
    "C87_surely",
    "C87_certain",
    "C87_test",
    "C87_default"
   ],
   "note": "The values and leaves are assumed to come from generators that always return. Finding: leaving out setSize turns the generator of the test into one that almost never returns."
  },
  {
   "property": "C88",
   "status": "proved",
   "theorems": [
    "C88_interval",
    "C88_set",
    "C88_map",
    "C88_draws",
    "C88_surely",
    "C88_few",
    "C88_wait",
    "C88_certain",
    "C88_integers",
    "C88_map_keys",
    "C88_map_integers",
    "C88_forAll",
    "C88_equal",
    "C88_contains",
    "C88_map_equal"
   ],
   "note": "Equal likelihood is assumed of the element generator (proved for interval in C88_interval); C88_few needs only the list of possible values. Finding: with default sizes sets of few-valued types almost never return."
  },
  {
   "property": "C89",
   "status": "proved",
   "theorems": [
    "C89_value",
    "C89_nan",
    "C89_range",
    "C89_binade",
    "C89_below",
    "C89_sign",
    "C89_undefined",
    "C89_forAll"
   ],
   "note": "Probabilities as in C78. NaN payloads are not distinguished (the model drops them). Finding: about 48% of generated doubles and 37.5% of generated floats have shrinks whose computation is undefined behaviour; a double between 1 and a million is generated once in about 103 runs; 0.0 practically never."
  },
  {
   "property": "C90",
   "status": "proved",
   "theorems": [
    "C90_characters",
    "C90_returns",
    "C90_character",
    "C90_texts",
    "C90_ascii",
    "C90_ascii_default",
    "C90_text"
   ],
   "note": "Probabilities as in C78; the loop of oneOf is bounded by m+1 rounds. Sizes such that six bytes per character stay below 2^31, as in C55. Finding: the default Unicode string generators practically never produce ASCII text."
  },
  {
   "property": "C91",
   "status": "proved",
   "theorems": [
    "C91_calm",
    "C91_effort",
    "C91_generators",
    "C91_worst",
    "C91_found",
    "C91_threshold",
    "C91_boundary_refuted"
   ],
   "note": "Where asking for shrinks is undefined behaviour (values from 2^32 on, C58) the value is taken to offer none; below 2^32 nothing is left out (C91_calm). The boundary itself is not found: C91_boundary_refuted."
  },
  {
   "property": "C92",
   "status": "proved",
   "theorems": [
    "C92_prefix",
    "C92_min",
    "C92_occurs",
    "C92_calls",
    "C92_minimal_refuted"
   ],
   "note": "As C67 for byte strings, with characters in place of bytes. Sizes such that six bytes per character stay below 2^31. C92_minimal_refuted: the front is not shrunk."
  },
  {
   "property": "C93",
   "status": "proved",
   "theorems": [
    "C93_enough",
    "C93_first",
    "C93_sides",
    "C93_range",
    "C93_whole",
    "C93_string",
    "C93_ends",
    "C93_two",
    "C93_integer",
    "C93_upward",
    "C93_downward"
   ],
   "note": "Combines C32, C66 and C78 into a statement about the whole call. Properties that discard, and time limits, are left to C78 and C32."
  }
 ]
}