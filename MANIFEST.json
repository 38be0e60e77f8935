{
 "claims": [
  {
   "property": "C01",
   "status": "proved",
   "theorems": [
    "C01_value_transparency",
    "C01_get"
   ],
   "note": ""
  },
  {
   "property": "C02",
   "status": "proved",
   "theorems": [
    "C02_sharing",
    "C02_unique"
   ],
   "note": ""
  },
  {
   "property": "C03",
   "status": "proved",
   "theorems": [
    "C03_stability"
   ],
   "note": ""
  },
  {
   "property": "C04",
   "status": "proved",
   "theorems": [
    "C04_exact_contents",
    "C04_empty_at_end",
    "C04_lookup"
   ],
   "note": ""
  },
  {
   "property": "C05",
   "status": "proved",
   "theorems": [
    "C05_no_tracking_forever"
   ],
   "note": ""
  },
  {
   "property": "C06",
   "status": "proved",
   "theorems": [
    "C06_build_only_on_miss",
    "C06_once_per_life",
    "C06_none_while_held",
    "C07_construction_outcome"
   ],
   "note": ""
  },
  {
   "property": "C07",
   "status": "proved",
   "theorems": [
    "C07_construction_outcome",
    "C07_retry",
    "C07_no_residue",
    "C03_stability"
   ],
   "note": ""
  },
  {
   "property": "C08",
   "status": "proved",
   "theorems": [
    "C08_copy",
    "C08_assign",
    "C08_order",
    "C08_self_assign",
    "C08_assign_value",
    "C08_destroy"
   ],
   "note": ""
  },
  {
   "property": "C09",
   "status": "proved",
   "theorems": [
    "C09_swap"
   ],
   "note": "Core machine (refcounted_handle and plain pointer handles)."
  },
  {
   "property": "C10",
   "status": "proved",
   "theorems": [
    "C10_hash_consistent",
    "C10_hash_by_key",
    "C10_hash_stable"
   ],
   "note": ""
  },
  {
   "property": "C11",
   "status": "proved",
   "theorems": [
    "C11_comparison_same_type",
    "C11_equal_same_value",
    "C11_comparison_mixed",
    "C11_consistent",
    "C11_without_assumption_refuted"
   ],
   "note": ""
  },
  {
   "property": "C12",
   "status": "proved",
   "theorems": [
    "C12_lifetimes",
    "C12_entries_stay"
   ],
   "note": "Executable memory model of rep_type with raw storage; use outside lifetime is UB. All operation sequences, all throw points."
  },
  {
   "property": "C13",
   "status": "proved",
   "theorems": [
    "C13_lifetimes",
    "C13_entries_stay",
    "C13_get_key",
    "C13_insert",
    "C13_default_lifetimes"
   ],
   "note": "Same model, key_value without extractor; also the default policy."
  },
  {
   "property": "C14",
   "status": "proved",
   "theorems": [
    "C14_rvalue",
    "C14_lvalue",
    "C14_default_always_taken"
   ],
   "note": "Insertion by value in any reachable memory; the last theorem records that the default policy takes the rvalue always."
  },
  {
   "property": "C15",
   "status": "proved",
   "theorems": [
    "C15_hashed_factory",
    "C15_incompatible_hash_refuted",
    "C15_sharing_lost_refuted"
   ],
   "note": ""
  },
  {
   "property": "C16",
   "status": "proved",
   "theorems": [
    "C16_set_factory",
    "C16_not_strict_refuted"
   ],
   "note": ""
  },
  {
   "property": "C17",
   "status": "proved",
   "theorems": [
    "C17_composite_release"
   ],
   "note": ""
  },
  {
   "property": "C18",
   "status": "proved",
   "theorems": [
    "C18_no_undefined_behaviour",
    "C18_value",
    "C18_no_exception",
    "C18_once",
    "C18_once_created",
    "C18_calls",
    "C18_reclaimed"
   ],
   "note": "Constructors are arbitrary programs that create, read, drop and keep flyweights of smaller keys and may throw; all operation sequences from the empty factory."
  },
  {
   "property": "C19",
   "status": "proved",
   "theorems": [
    "C19_refuted",
    "C19_reentry_throws",
    "C19_reentry_returns"
   ],
   "note": "Refuted by a witness, as the property says; the two general theorems give the undefined behaviour for every re-entering constructor of the given shapes."
  },
  {
   "property": "C20",
   "status": "proved",
   "theorems": [
    "C20_no_undefined_behaviour"
   ],
   "note": ""
  },
  {
   "property": "C21",
   "status": "proved",
   "theorems": [
    "C21_no_data_race",
    "C21_get_race_free",
    "C21_locked",
    "C21_changes_locked"
   ],
   "note": ""
  },
  {
   "property": "C22",
   "status": "proved",
   "theorems": [
    "C22_erase_only_unreferenced",
    "C22_why_stored"
   ],
   "note": ""
  },
  {
   "property": "C23",
   "status": "proved",
   "theorems": [
    "C23_deadlock_freedom"
   ],
   "note": ""
  },
  {
   "property": "C24",
   "status": "proved",
   "theorems": [
    "C24_value_constructed",
    "C20_no_undefined_behaviour"
   ],
   "note": ""
  },
  {
   "property": "C25",
   "status": "proved",
   "theorems": [
    "C25_no_locking_single_thread"
   ],
   "note": ""
  },
  {
   "property": "C26",
   "status": "proved",
   "theorems": [
    "C26_no_locking_two_threads_refuted"
   ],
   "note": "Refuted by explicit schedules, as the property says."
  },
  {
   "property": "C27",
   "status": "proved",
   "theorems": [
    "C27_no_undefined_behaviour",
    "C27_erase_safe",
    "C27_only_gc"
   ],
   "note": "Machine with per-element exclusive access; boost::concurrent_node_set is taken at its documentation (DESIGN.md)."
  },
  {
   "property": "C28",
   "status": "proved",
   "theorems": [
    "C28_pass",
    "C28_empties",
    "C28_passes_complete",
    "C28_pass_progress"
   ],
   "note": "The two parts of the claim, existence of complete pass sequences, and that a pass waits only for threads that can move."
  },
  {
   "property": "C29",
   "status": "proved",
   "theorems": [
    "C29_no_undefined_behaviour",
    "C29_no_access_after_join",
    "C29_stop_not_raced",
    "C29_no_deadlock",
    "C29_terminates",
    "C29_returns",
    "C29_mutex_released",
    "C29_fair_executions_return"
   ],
   "note": "All interleavings of the owner (constructor, destructor) and the collector thread, all wake-ups by notification, time-out or spuriously. After stop is set every schedule ends within 15 steps plus the rest of a traversal in progress, without relying on the time-out; before that, the destructor gets the mutex in every fair execution."
  },
  {
   "property": "C30",
   "status": "proved",
   "theorems": [
    "C30_transparency",
    "C30_sharing",
    "C30_unique",
    "C30_stability",
    "C30_usable",
    "C30_get",
    "C30_build_only_on_miss",
    "C30_once_per_life",
    "C30_progress",
    "C30_bounded"
   ],
   "note": ""
  },
  {
   "property": "C31",
   "status": "proved",
   "theorems": [
    "C31_throw",
    "C31_residue",
    "C31_completed",
    "C31_outcome",
    "C31_retry"
   ],
   "note": "The first three for all interleavings; the last two give the complete outcome of a creation run without interruption."
  },
  {
   "property": "C32",
   "status": "proved",
   "theorems": [
    "C32_alive",
    "C32_zero",
    "C32_count_exact"
   ],
   "note": "Stated of every reachable state, hence of every intermediate point of every call."
  },
  {
   "property": "C33",
   "status": "proved",
   "theorems": [
    "C33_round_trip",
    "C33_sharing"
   ],
   "note": "Keys that contain no flyweights of the same type; for those see C38. The loading program may use another factory, tracking and locking policy with the same key equivalence."
  },
  {
   "property": "C34",
   "status": "proved",
   "theorems": [
    "C34_keys_once",
    "C34_index_range",
    "C35_archive_determined"
   ],
   "note": ""
  },
  {
   "property": "C35",
   "status": "proved",
   "theorems": [
    "C35_archive_determined",
    "C33_round_trip",
    "C34_keys_once"
   ],
   "note": ""
  },
  {
   "property": "C36",
   "status": "proved",
   "theorems": [
    "C36_any_input",
    "C36_returns_only_if_valid",
    "C36_rejected",
    "C37_failed_load"
   ],
   "note": ""
  },
  {
   "property": "C37",
   "status": "proved",
   "theorems": [
    "C37_failed_load",
    "C37_key_objects"
   ],
   "note": ""
  },
  {
   "property": "C38",
   "status": "proved",
   "theorems": [
    "C38_nested_round_trip_refuted",
    "C38_children_first",
    "C38_with_last_element"
   ],
   "note": "The round trip is refuted by a witness, as the property says; it holds when contained flyweights are saved first, and would hold in general if line 88 used the element just pushed."
  },
  {
   "property": "C39",
   "status": "proved",
   "theorems": [
    "C39_ready",
    "C39_once",
    "C39_idempotent",
    "C39_static_initializer"
   ],
   "note": ""
  },
  {
   "property": "C40",
   "status": "proved",
   "theorems": [
    "C40_order",
    "C40_safe_exit",
    "C40_initializers_first",
    "C40_late_container_refuted"
   ],
   "note": "The negative half of the claim is proved with a witness."
  },
  {
   "property": "C41",
   "status": "proved",
   "theorems": [
    "C41_race_refuted",
    "C41_pointer_race_refuted",
    "C41_after_init",
    "C41_single_holder"
   ],
   "note": "The property is false of the code, as documented; witnesses for both kinds of race, freedom from races after init() for any number of threads, and (beyond the claim) single construction of the holder under sequential consistency."
  },
  {
   "property": "C42",
   "status": "proved",
   "theorems": [
    "C42_modules",
    "C42_intermodule",
    "C42_one_factory",
    "C42_static",
    "C42_static_refuted",
    "C42_static_release_refuted",
    "C42_uninitialized_refuted",
    "C42_unload_refuted"
   ],
   "note": "All programs over any number of modules, with loading and unloading; intermodule_singleton is taken at its documentation. The limits (static_holder across modules, use by a module which has not initialized the class) are refuted with witnesses."
  },
  {
   "property": "C43",
   "status": "partial",
   "theorems": [
    "C43_resolve",
    "C43_permutation",
    "C43_unmatched",
    "C43_rejected",
    "C43_repeated",
    "C43_repeated_refuted",
    "C43_ambiguous_refuted"
   ],
   "note": "That a repeated category is rejected is proved for repeated keywords, and for arguments without keyword only if Boost.Parameter (not in /repo) rejects left-over arguments; flyweight.hpp itself does not, with a witness. Hence partial; everything else in the claim is proved."
  },
  {
   "property": "C44",
   "status": "proved",
   "theorems": [
    "C44_share",
    "C44_isolation",
    "C44_untouched",
    "C44_cores"
   ],
   "note": ""
  },
  {
   "property": "C45",
   "status": "partial",
   "theorems": [
    "C45_forward",
    "C45_forward_args",
    "C45_unique",
    "C45_beyond_limit",
    "C45_category_refuted"
   ],
   "note": "One best overload for all arities up to the limit and all argument categories, in all three implementations of forwarding. That every argument keeps its own category is proved when the language has rvalue references; without them it is false of the code (rvalues arrive as const lvalues), with a witness, and what does arrive is stated and proved instead. Hence partial. Arguments are of class type."
  },
  {
   "property": "C46",
   "status": "proved",
   "theorems": [
    "C46_copy",
    "C46_value",
    "C46_key",
    "C46_ilist",
    "C46_assign_copy",
    "C46_assign_value",
    "C46_assign_converted",
    "C46_assign_ilist",
    "C46_assign_other",
    "C46_explicit",
    "C46_implicit_copy",
    "C46_derived_refuted"
   ],
   "note": "The claim is about flyweights of the same type. Beyond it: constructing from an object of a class derived from flyweight constructs a key, with a witness, while assigning from it copies the handle."
  },
  {
   "property": "C47",
   "status": "proved",
   "theorems": [
    "C47_output",
    "C47_input"
   ],
   "note": ""
  },
  {
   "property": "C48",
   "status": "proved",
   "theorems": [
    "C48_get_key",
    "C48_default",
    "C48_product",
    "C48_variant"
   ],
   "note": ""
  },
  {
   "property": "C49",
   "status": "proved",
   "theorems": [
    "C49_no_undefined_behaviour",
    "C49_mutual_exclusion",
    "C49_free",
    "C49_recursive",
    "C49_all_released",
    "C49_block_balanced",
    "C49_progress",
    "C49_terminates"
   ],
   "note": "Any number of threads running arbitrary block-structured code with exceptions, lock() itself may throw. The mutex primitive is taken at its specification."
  },
  {
   "property": "C50",
   "status": "proved",
   "theorems": [
    "C50_construction",
    "C50_destroyed_once"
   ],
   "note": "archived and with_archived of Lifetime.v."
  },
  {
   "property": "C51",
   "status": "proved",
   "theorems": [
    "C51_outer_initializer_refuted",
    "C51_no_tracking_refuted",
    "C51_leak_refuted",
    "C40_initializers_first"
   ],
   "note": ""
  },
  {
   "property": "C52",
   "status": "proved",
   "theorems": [
    "C52_operators",
    "C52_serialization",
    "C52_spelling",
    "C52_unserializable",
    "C52_serialization_refuted"
   ],
   "note": "That serialization accepts every flyweight type is false (serialize.hpp names three policy arguments, flyweight has five); witness given, and exactly which types are accepted is proved."
  },
  {
   "property": "C53",
   "status": "proved",
   "theorems": [
    "C53_values",
    "C53_progress",
    "C53_progress_locked",
    "C53_terminates",
    "C53_cycle",
    "C53_dead_forever",
    "C53_once",
    "C53_group_refuted",
    "C53_cross_refuted",
    "C53_again_refuted"
   ],
   "note": "The container is taken at its documentation (exclusive access while an element is visited); how it groups elements is a parameter. The refuted theorems are the deadlocks when the conditions are not met."
  },
  {
   "property": "C54",
   "status": "proved",
   "theorems": [
    "C54_detection",
    "C54_hashed",
    "C54_concurrent",
    "C54_set",
    "C54_assoc",
    "C54_classes",
    "C54_specifiers",
    "C54_no_lookup",
    "C54_empty_base",
    "C54_containers",
    "C54_masked_refuted",
    "C54_arity_refuted",
    "C54_nested_type_refuted",
    "C54_placeholder_value_refuted"
   ],
   "note": "MPL lambda expressions at their documentation. For functors without a member type other than themselves; the refuted theorems show that this, MPL arity limit and the extra parameter of the specifiers matter."
  },
  {
   "property": "C55",
   "status": "proved",
   "theorems": [
    "C55_safe",
    "C55_no_race",
    "C55_race_refuted",
    "C55_kept",
    "C55_collected",
    "C55_counters",
    "C55_last_deleter",
    "C55_progress"
   ],
   "note": "One key at a time. The race is for no_locking, which the documentation recommends with concurrent_factory only together with no_tracking."
  },
  {
   "property": "C56",
   "status": "proved",
   "theorems": [
    "C56_chosen",
    "C56_derived",
    "C56_values",
    "C56_values_refuted",
    "C56_derived_refuted"
   ],
   "note": "C56_values assumes that flyweights of one type share entries just when values are equal (C02); the refuted theorems show what happens otherwise."
  },
  {
   "property": "C57",
   "status": "proved",
   "theorems": [
    "C57_no_race",
    "C57_destroyed_last",
    "C57_constructed_first",
    "C57_release_refuted",
    "C57_acquire_refuted"
   ],
   "note": "One key (C60 has any number); other keys appear as accesses to the factory. boost::detail::atomic_count is not in /repo, so what its operations order is a parameter; the refuted theorems are for weaker decrements."
  },
  {
   "property": "C58",
   "status": "proved",
   "theorems": [
    "C58_no_race",
    "C58_erased_last",
    "C58_erased",
    "C58_zero",
    "C58_kept",
    "C58_constructed_first",
    "C58_release_refuted",
    "C58_acquire_refuted"
   ],
   "note": "One key. The code uses sequentially consistent operations; the theorems hold for weaker ones, and the refuted theorems show how weak they may not be."
  },
  {
   "property": "C59",
   "status": "proved",
   "theorems": [
    "C59_unique_set",
    "C59_rule",
    "C59_tenth",
    "C59_flyweights",
    "C59_nan_refuted"
   ],
   "note": "The refuted theorem is about an equality that is not reflexive."
  },
  {
   "property": "C60",
   "status": "proved",
   "theorems": [
    "C60_same_machine",
    "C60_no_race",
    "C60_order",
    "C60_created_first",
    "C60_destroyed_last",
    "C60_logged",
    "C60_graph",
    "C60_mutex",
    "C60_no_race_graph",
    "C60_release_refuted",
    "C60_acquire_refuted",
    "C60_unlocked_refuted",
    "C60_release_graph_refuted",
    "C60_acquire_graph_refuted"
   ],
   "note": "Over the machine of Core.v. What the operations of the atomic counter order is a parameter; the program orders uses of a flyweight object after it was made and its destruction after its uses. The refuted theorems are for weaker decrements and for no_locking with two threads."
  },
  {
   "property": "C61",
   "status": "proved",
   "theorems": [
    "C61_inner",
    "C61_enabled",
    "C61_stable",
    "C61_outlives",
    "C61_descend",
    "C61_well_founded"
   ],
   "note": "Values whose constructors complete; a value policy tells which flyweights a value holds."
  },
  {
   "property": "C62",
   "status": "proved",
   "theorems": [
    "C62_tree",
    "C62_shared",
    "C62_stable",
    "C62_make",
    "C62_print"
   ],
   "note": "For value types whose equality compares contained flyweights with operator==, as std::vector and boost::variant do; the example is example/composite.cpp."
  },
  {
   "property": "C63",
   "status": "proved",
   "theorems": [
    "C63_no_race",
    "C63_covers",
    "C63_zero",
    "C63_erased",
    "C63_alive",
    "C63_order",
    "C63_created_first",
    "C63_destroyed_last",
    "C63_logged",
    "C63_graph",
    "C63_no_race_graph",
    "C63_elements",
    "C63_history",
    "C63_coherent",
    "C63_release_refuted",
    "C63_acquire_refuted",
    "C63_release_graph_refuted",
    "C63_acquire_graph_refuted"
   ],
   "note": "Over the machine of Concurrent.v, with old values for the load. The code uses sequentially consistent operations; the theorems hold for weaker ones, and the refuted theorems show how weak they may not be."
  },
  {
   "property": "C64",
   "status": "proved",
   "theorems": [
    "C64_transparent",
    "C64_completes",
    "C64_minimal"
   ],
   "note": "For value types whose equality compares contained flyweights with operator==, as C62; programs do not use arguments from which no value can be made. Other threads use other objects."
  },
  {
   "property": "C65",
   "status": "proved",
   "theorems": [
    "C65_tokens",
    "C65_main",
    "C65_completes",
    "C65_shared"
   ],
   "note": "The parser and printer are modelled as a program of Client.v; boost::tokenizer at its documentation."
  },
  {
   "property": "C66",
   "status": "proved",
   "theorems": [
    "C66_parse",
    "C66_past_end",
    "C66_roundtrip",
    "C66_read",
    "C66_rearrange",
    "C66_main",
    "C66_declaration_refuted",
    "C66_quote_refuted",
    "C66_less_refuted"
   ],
   "note": "With plain values in place of flyweights. The refuted theorems are witnesses for the exceptions in the statement."
  },
  {
   "property": "C67",
   "status": "proved",
   "theorems": [
    "C67_main",
    "C67_completes",
    "C67_shared"
   ],
   "note": "The three flyweight classes of the example are modelled as one class with disjoint values."
  },
  {
   "property": "C68",
   "status": "proved",
   "theorems": [
    "C68_team",
    "C68_completes",
    "C68_stages",
    "C68_stages_complete"
   ],
   "note": ""
  },
  {
   "property": "C69",
   "status": "proved",
   "theorems": [
    "C69_words",
    "C69_tokenize",
    "C69_chunks",
    "C69_parse",
    "C69_all",
    "C69_completes",
    "C69_throws"
   ],
   "note": "For the instantiations with regular flyweights."
  },
  {
   "property": "C70",
   "status": "proved",
   "theorems": [
    "C70_kept",
    "C70_from",
    "C70_once",
    "C70_reuse",
    "C70_constructed"
   ],
   "note": ""
  },
  {
   "property": "C71",
   "status": "proved",
   "theorems": [
    "C71_main",
    "C71_completes",
    "C71_kept",
    "C71_no_copy",
    "C71_once",
    "C71_created",
    "C71_loads"
   ],
   "note": ""
  },
  {
   "property": "C72",
   "status": "proved",
   "theorems": [
    "C72_transparent",
    "C72_completes",
    "C72_minimal"
   ],
   "note": ""
  },
  {
   "property": "C73",
   "status": "proved",
   "theorems": [
    "C73_keeps",
    "C73_there",
    "C73_garbage",
    "C73_exact"
   ],
   "note": ""
  },
  {
   "property": "C74",
   "status": "proved",
   "theorems": [
    "C74_team",
    "C74_completes",
    "C74_stages",
    "C74_stages_complete"
   ],
   "note": ""
  },
  {
   "property": "C75",
   "status": "proved",
   "theorems": [
    "C75_parse",
    "C75_all",
    "C75_completes",
    "C75_throws"
   ],
   "note": ""
  },
  {
   "property": "C76",
   "status": "proved",
   "theorems": [
    "C76_reads",
    "C76_total",
    "C76_main",
    "C76_completes"
   ],
   "note": ""
  },
  {
   "property": "C77",
   "status": "proved",
   "theorems": [
    "C77_story",
    "C77_balance",
    "C77_alone",
    "C77_words",
    "C77_main",
    "C77_writes"
   ],
   "note": ""
  },
  {
   "property": "C78",
   "status": "proved",
   "theorems": [
    "C78_tokens",
    "C78_archive",
    "C78_round",
    "C78_main",
    "C78_completes",
    "C78_text"
   ],
   "note": ""
  },
  {
   "property": "C79",
   "status": "proved",
   "theorems": [
    "C79_defined",
    "C79_sum",
    "C79_string",
    "C79_main",
    "C79_completes",
    "C79_memory",
    "C79_empty",
    "C79_empty_refuted"
   ],
   "note": ""
  },
  {
   "property": "C80",
   "status": "proved",
   "theorems": [
    "C80_counts",
    "C80_nothing",
    "C80_room",
    "C80_room_refuted",
    "C80_report",
    "C80_wrong",
    "C80_twice"
   ],
   "note": ""
  },
  {
   "property": "C81",
   "status": "proved",
   "theorems": [
    "C81_stored",
    "C81_once",
    "C81_team",
    "C81_at_least",
    "C81_nothing"
   ],
   "note": ""
  },
  {
   "property": "C82",
   "status": "proved",
   "theorems": [
    "C82_stored",
    "C82_once",
    "C82_team",
    "C82_nothing",
    "C82_enough"
   ],
   "note": ""
  }
 ]
}