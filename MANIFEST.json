{
 "claims": [
  {
   "property": "C01",
   "status": "proved",
   "theorems": [
    "C01_concurrency_bounded"
   ],
   "note": "Invariant over all interleavings of the scheduler's critical sections, notifications, cancellations and drops."
  },
  {
   "property": "C02",
   "status": "proved",
   "theorems": [
    "C02_one_generation_per_project"
   ],
   "note": "Also shows that none of the scheduler's assertions can fire."
  },
  {
   "property": "C03",
   "status": "proved",
   "theorems": [
    "C03_admission_order",
    "C03_effective_priority"
   ],
   "note": "Order stated over what callers hold and what waits; the fairness counter is tied to the history of admissions."
  },
  {
   "property": "C04",
   "status": "proved",
   "theorems": [
    "C04_background_bounded_overtaking"
   ],
   "note": "Bound 2*(older pending requests)+1 by a potential argument; the bound is reached in the example."
  },
  {
   "property": "C05",
   "status": "partial",
   "theorems": [
    "C05_open_document_starvation_refuted",
    "C05_open_document_partial"
   ],
   "note": "The property is false of the code: a steady supply of active-document requests overtakes an open-document request for ever. Only same-class overtaking is bounded."
  },
  {
   "property": "C06",
   "status": "proved",
   "theorems": [
    "C06_no_lost_wakeup"
   ],
   "note": "Assumes tokio Notify's contract (notify_waiters wakes every Notified future already created)."
  },
  {
   "property": "C07",
   "status": "proved",
   "theorems": [
    "C07_cancelled_never_admitted",
    "C07_cancelled_leaves_queue",
    "C07_dropped_leaves_queue"
   ],
   "note": ""
  },
  {
   "property": "C08",
   "status": "proved",
   "theorems": [
    "C08_never_over_commits",
    "C08_no_leak"
   ],
   "note": "Sums over the leases in callers' hands; includes absence of panics and conservation admissions = held + ended."
  },
  {
   "property": "C09",
   "status": "proved",
   "theorems": [
    "C09_navigation_gate"
   ],
   "note": "Active project and pending flag are computed from the call history, not read from the model state."
  },
  {
   "property": "C10",
   "status": "partial",
   "theorems": [
    "C10_sleeping_on_available_work_refuted",
    "C10_no_lost_wakeup_partial"
   ],
   "note": "False of the code: admission does not notify, so a second request that fits can sleep until some lease is released. Proved: never when no lease is held."
  },
  {
   "property": "C11",
   "status": "partial",
   "theorems": [
    "C11_background_starvation_refuted",
    "C11_background_bounded_overtaking_partial"
   ],
   "note": "False of the code: a wide request is overtaken for ever by narrow ones. Bounded overtaking proved while the request fits."
  },
  {
   "property": "C12",
   "status": "proved",
   "theorems": [
    "C12_one_producer_per_key",
    "C12_lookup_joins_running_producer",
    "C12_results_come_from_the_producer",
    "C12_one_result_per_flight"
   ],
   "note": "All three caches in one state machine."
  },
  {
   "property": "C13",
   "status": "partial",
   "theorems": [
    "C13_blocking_failure_not_served",
    "C13_async_failure_served_refuted",
    "C13_failure_not_served_after_cleanup_partial"
   ],
   "note": "Proved for the blocking cache. False of the asynchronous ones: the failed entry is removed only after its waiters are notified, so a caller in between gets the old failure as a cache hit; proved once the producer's task has cleaned up."
  },
  {
   "property": "C14",
   "status": "partial",
   "theorems": [
    "C14_limits_hold",
    "C14_retained_means",
    "C14_only_oldest_completed_evicted",
    "C14_in_flight_kept",
    "C14_minimal_eviction_refuted"
   ],
   "note": "Limits, age order and in-flight protection proved. 'Only as many as needed' is false: a newest product above the weight limit first evicts all older ones."
  },
  {
   "property": "C15",
   "status": "proved",
   "theorems": [
    "C15_lookups_exact",
    "C15_sum_when_quiet",
    "C15_producers_exact",
    "C15_producers_equal_misses",
    "C15_lookup_classification",
    "C15_entries_balance"
   ],
   "note": "Exact at every instant in terms of the calls in progress; the plain equalities when no call is between two counter updates."
  },
  {
   "property": "C16",
   "status": "proved",
   "theorems": [
    "C16_envelope_round_trip",
    "C16_published_is_readable",
    "C16_publish_accepts"
   ],
   "note": "SHA-256 and zstd are arbitrary functions; assumed: a 32-byte digest and lossless compression."
  },
  {
   "property": "C17",
   "status": "proved",
   "theorems": [
    "C17_accepted_layout",
    "C17_no_prefix_accepted",
    "C17_kinds_disjoint",
    "C17_tampering_needs_collision"
   ],
   "note": "For every byte string. SHA-256 and zstd are arbitrary functions."
  },
  {
   "property": "C18",
   "status": "proved",
   "theorems": [
    "C18_file_is_complete",
    "C18_hit_is_complete"
   ],
   "note": "All interleavings of threads and processes, process deaths and power failures."
  },
  {
   "property": "C19",
   "status": "partial",
   "theorems": [
    "C19_cleanup_is_exact",
    "C19_nothing_removed_within_limits",
    "C19_limits_hold_with_vanished_files",
    "C19_minimal_with_vanished_files_refuted",
    "C19_limits_after_every_publication",
    "C19_limits_across_processes_refuted"
   ],
   "note": "Limits, age order and minimality are proved when removals succeed. If a file vanishes between scan and removal one file too many is evicted (refuted). Between cleanups the limits hold for one process at a time, not across processes (refuted)."
  },
  {
   "property": "C20",
   "status": "proved",
   "theorems": [
    "C20_outstanding_bounded",
    "C20_drained_keys_were_requested",
    "C20_drained_once",
    "C20_drain_order",
    "C20_accepted_key_not_lost",
    "C20_request_answers"
   ],
   "note": ""
  },
  {
   "property": "C21",
   "status": "partial",
   "theorems": [
    "C21_normalized_name_panics_refuted",
    "C21_late_completion_panics_refuted",
    "C21_shared_key_panics_refuted",
    "C21_legal_use_never_panics_partial",
    "C21_normalize_partial"
   ],
   "note": "False of the code: names whose lower-casing leaves the alphanumeric characters, completion after stage completion, and a key completed by two holders all panic. Proved: no panic under an explicit calling protocol."
  },
  {
   "property": "C22",
   "status": "proved",
   "theorems": [
    "C22_stale_updates_ignored",
    "C22_new_run_cancels_old",
    "C22_only_latest_run_is_current"
   ],
   "note": ""
  },
  {
   "property": "C23",
   "status": "partial",
   "theorems": [
    "C23_sequence_strictly_increases",
    "C23_phase_monotone",
    "C23_progress_monotone_refuted",
    "C23_progress_monotone_partial"
   ],
   "note": "Sequence numbers and phases are monotone. Progress counters are not: a call without counters resets the comparison. Proved when every publication in between carries counters."
  },
  {
   "property": "C24",
   "status": "proved",
   "theorems": [
    "C24_order_and_duplication",
    "C24_grouping",
    "C24_idempotent",
    "C24_idempotent_nested_refuted",
    "C24_result_canonical",
    "C24_unknown_absorbs",
    "C24_unknown_exactly",
    "C24_denotes_the_union",
    "C24_union_with",
    "C24_optional",
    "C24_union_with_comm",
    "C24_union_with_assoc",
    "C24_from_proven"
   ],
   "note": "Grouping and idempotence are for flat types (no union directly inside a union, which union itself guarantees of its results); a hand-built nested union is a counterexample to idempotence."
  },
  {
   "property": "C25",
   "status": "partial",
   "theorems": [
    "C25_recursion",
    "C25_subtyping_sound_partial",
    "C25_subtyping_sound_refuted",
    "C25_rest_key_refuted",
    "C25_common_supertype_partial",
    "C25_generic_hash_view"
   ],
   "note": "Sound when the target has no optional fields, or none in exact shapes and the source no rest types. Both exclusions are necessary: two unsound acceptances are exhibited."
  },
  {
   "property": "C26",
   "status": "partial",
   "theorems": [
    "C26_reflexive",
    "C26_transitive_partial",
    "C26_transitive_refuted",
    "C26_decides_without_shapes"
   ],
   "note": "Reflexive always; transitive on shape-free types; refuted with shapes."
  },
  {
   "property": "C27",
   "status": "partial",
   "theorems": [
    "C27_widen_total_partial",
    "C27_shape_mapping",
    "C27_widen_total_refuted",
    "C27_subtype_total_refuted"
   ],
   "note": "Total on well-formed types (no empty collections, at most eight shapes among alternatives); the public constructors can build a shape holding an empty Array on which widen_literals panics."
  },
  {
   "property": "C28",
   "status": "proved",
   "theorems": [
    "C28_accepts_exactly",
    "C28_result",
    "C28_depth_exact",
    "C28_nesting_bounded",
    "C28_field_lookup",
    "C28_errors_truthful"
   ],
   "note": ""
  },
  {
   "property": "C29",
   "status": "proved",
   "theorems": [
    "C29_proven_is_the_union",
    "C29_unproven_blocks",
    "C29_exact_alternatives",
    "C29_exact_values",
    "C29_canonical",
    "C29_proven_only_when_known",
    "C29_proven_when_known_partial",
    "C29_large_circle_refuted",
    "C29_constructors",
    "C29_from_ruby_type_total",
    "C29_constant_bases",
    "C29_constant_bases_usable"
   ],
   "note": "Bases hold no union with an Unknown member, as the equation constructors guarantee (C29_constructors, C29_constant_bases_usable). Beyond the claim: with flat bases the type is the least solution, and everything known below a method is enough up to eight shapes and circles of seven methods; a circle of eight is given up."
  },
  {
   "property": "C30",
   "status": "proved",
   "theorems": [
    "C30_terminates",
    "C30_one_outcome",
    "C30_order",
    "C30_permutation",
    "C30_components",
    "C30_reason_order_refuted",
    "C30_telemetry_order_refuted"
   ],
   "note": "Rests on a full correctness proof of the strongly connected component search. The reason attached to an Unknown and the iteration counters do depend on the order."
  },
  {
   "property": "C31",
   "status": "proved",
   "theorems": [
    "C31_never_panics",
    "C31_conflict_panics",
    "C31_typed_exactly",
    "C31_circles",
    "C31_order",
    "C31_latest_definition",
    "C31_same_place_refuted"
   ],
   "note": "One equation per target, no projected Unknown (asserted by the code), no two definitions of one constant at one place; without the last the store order decides."
  },
  {
   "property": "C32",
   "status": "proved",
   "theorems": [
    "C32_never_panics",
    "C32_foreign_fact_panics",
    "C32_nodes_for",
    "C32_nodes_in_file",
    "C32_all_nodes",
    "C32_edges_from",
    "C32_edges_to",
    "C32_edges_in_file",
    "C32_all_edges",
    "C32_unresolved_edges_in_file",
    "C32_unresolved_edges",
    "C32_has_unresolved_explicit_superclass",
    "C32_last_replacement",
    "C32_history_independent"
   ],
   "note": ""
  },
  {
   "property": "C33",
   "status": "proved",
   "theorems": [
    "C33_superclass_resolution",
    "C33_determined"
   ],
   "note": ""
  },
  {
   "property": "C34",
   "status": "proved",
   "theorems": [
    "C34_ancestors",
    "C34_method_lookup_chain",
    "C34_contains_itself",
    "C34_barrier",
    "C34_open_roots"
   ],
   "note": ""
  },
  {
   "property": "C35",
   "status": "partial",
   "theorems": [
    "C35_order_partial",
    "C35_unshared_partial",
    "C35_prepended_first",
    "C35_diamond_refuted"
   ],
   "note": "Refuted for an ancestor reached by two ways: the chain keeps its first occurrence in depth first order, Ruby its last position that respects the modules. Proved when no ancestor is reached twice; in general the chain is proved to be the depth first order without repetitions."
  },
  {
   "property": "C36",
   "status": "partial",
   "theorems": [
    "C36_same_graph_partial",
    "C36_same_answers_partial",
    "C36_bulk_load",
    "C36_settled_definitions",
    "C36_never_re_resolved_refuted",
    "C36_one_call_mixins_refuted",
    "C36_resolved_edges"
   ],
   "note": "Refuted in general: a superclass or mixin name resolved once is never resolved again, and the mixins of one call are ordered by the numbering of names. Proved for every history in which no name of the final files was resolved to something else on the way, in particular for bulk loads in any order and for edits that leave definitions alone."
  },
  {
   "property": "C37",
   "status": "partial",
   "theorems": [
    "C37_constant_fqn",
    "C37_constant_reference",
    "C37_graph_target_partial",
    "C37_graph_target_refuted"
   ],
   "note": "Proved for constant references; names of superclasses and mixins ignore value constants (refuted)."
  },
  {
   "property": "C38",
   "status": "proved",
   "theorems": [
    "C38_never_panics",
    "C38_foreign_fact_panics",
    "C38_facts_for",
    "C38_facts_in_file",
    "C38_all_facts",
    "C38_known_namespaces",
    "C38_history_independent",
    "C38_last_replacement",
    "C38_slots_reused"
   ],
   "note": "At most 2^32 facts in force at any time; every replacement supplies facts of its own file (otherwise it panics)."
  },
  {
   "property": "C39",
   "status": "proved",
   "theorems": [
    "C39_never_panics",
    "C39_foreign_fact_panics",
    "C39_facts_for",
    "C39_facts_for_unsorted",
    "C39_facts_in_file",
    "C39_targets_for_exact_range",
    "C39_all_facts",
    "C39_facts_for_caller",
    "C39_history_independent",
    "C39_raw_adds_repeat_refuted"
   ],
   "note": "Order and once-only need that plain add calls were followed by a sorting call (add_sorted, sort_all, replace_file), as in the code base; without it facts_in_file can repeat references."
  },
  {
   "property": "C40",
   "status": "proved",
   "theorems": [
    "C40_round_trip",
    "C40_any_offset",
    "C40_any_position",
    "C40_points_at_determines",
    "C40_monotone",
    "C40_offsets_monotone"
   ],
   "note": "Texts of at most 2^32-1 bytes, as the code's u32 positions require."
  },
  {
   "property": "C41",
   "status": "partial",
   "theorems": [
    "C41_position_partial",
    "C41_end_refuted",
    "C41_end",
    "C41_source_file"
   ],
   "note": "Refuted only at the end of a text whose last line has no line break, where the reported position is the start of a line that does not exist."
  },
  {
   "property": "C42",
   "status": "proved",
   "theorems": [
    "C42_layout",
    "C42_statements_apart"
   ],
   "note": ""
  },
  {
   "property": "C43",
   "status": "partial",
   "theorems": [
    "C43_tags_partial",
    "C43_every_text_is_a_template",
    "C43_raw_output_refuted"
   ],
   "note": "Refuted for <%== (the second = stays in the Ruby source); <%-= is excluded too, which the code reads as an output tag."
  },
  {
   "property": "C44",
   "status": "partial",
   "theorems": [
    "C44_encoding",
    "C44_one_byte",
    "C44_body_only",
    "C44_change_partial",
    "C44_collision_refuted",
    "C44_shape_refuted",
    "C44_constants_refuted",
    "C44_equations_refuted",
    "C44_two_halves"
   ],
   "note": "The bytes hashed for a fact are a prefix-free code of everything the encoders look at, one changed byte changes both 64-bit halves, and without hash collisions a file is classified BodyOnly exactly when the covered exports are the same up to order. Partial: whether a method's parameter list is complete, the constants a return equation depends on, and constant type equations are not covered (three refutations), and 128-bit collisions exist."
  },
  {
   "property": "C45",
   "status": "partial",
   "theorems": [
    "C45_snapshot",
    "C45_commit_partial",
    "C45_accepted",
    "C45_foreign",
    "C45_register_if_partial",
    "C45_register_new",
    "C45_hash_refuted"
   ],
   "note": "Every history of calls on any number of engines and clones. Proved when the 64-bit content hash tells the registered texts apart; refuted without that (ASCII texts are not kept, so two with equal hash and line lengths count as one)."
  },
  {
   "property": "C46",
   "status": "proved",
   "theorems": [
    "C46_stable",
    "C46_unique",
    "C46_inverse",
    "C46_registered",
    "C46_no_panic"
   ],
   "note": "Unix paths; two paths are the same when they spell the same components (empty segments and . do not count). At most 2^32-1 files."
  },
  {
   "property": "C47",
   "status": "partial",
   "theorems": [
    "C47_field",
    "C47_method",
    "C47_accepts_jvm",
    "C47_round_trip",
    "C47_names_are_text",
    "C47_exact_refuted"
   ],
   "note": "The grammar is decided exactly for object names without a semicolon; the JVM's own restrictions on class names are not checked, so some descriptors that are none are accepted (refuted)."
  },
  {
   "property": "C48",
   "status": "proved",
   "theorems": [
    "C48_valid",
    "C48_injective",
    "C48_no_constant",
    "C48_recovered",
    "C48_canonical_only"
   ],
   "note": "Assumes that NUL is no XID_Start character (a hypothesis of C48_no_constant)."
  },
  {
   "property": "C49",
   "status": "partial",
   "theorems": [
    "C49_tokens_partial",
    "C49_stream",
    "C49_prefix_operator_refuted",
    "C49_trailing_condition_refuted",
    "C49_heredoc_refuted"
   ],
   "note": "Proved for trees whose parts are written in visiting order; refuted for prefix operators, trailing while/until and here-documents, where the unsigned differences overflow."
  },
  {
   "property": "C50",
   "status": "partial",
   "theorems": [
    "C50_implementors_sound",
    "C50_implementors_partial",
    "C50_mixed_in_class_refuted"
   ],
   "note": "Exact on graphs where no class is mixed in, as in legal Ruby; refuted otherwise."
  },
  {
   "property": "C51",
   "status": "proved",
   "theorems": [
    "C51_governor_admission_order"
   ],
   "note": ""
  },
  {
   "property": "C52",
   "status": "partial",
   "theorems": [
    "C52_terminal_status_frozen_refuted",
    "C52_terminal_status_frozen_partial"
   ],
   "note": "transition() accepts Failed and Cancelled and then leaves the clock running; proved when those are reached through fail() and cancel(), as all callers do."
  },
  {
   "property": "C53",
   "status": "partial",
   "theorems": [
    "C53_tickets_are_answered",
    "C53_decided_stays_decided",
    "C53_answers_are_true",
    "C53_panic_loses_wakeup_refuted"
   ],
   "note": "Holds while no call panicked; a complete_keys call that fails half way sends no notification."
  },
  {
   "property": "C54",
   "status": "partial",
   "theorems": [
    "C54_waiter_can_be_answered",
    "C54_notified_waiter_wakes",
    "C54_builder_panic_strands_key_refuted"
   ],
   "note": "Every sleeping caller can be answered once the producer returned. A panic of the closure that builds the asynchronous producer strands the key (no caller in the repository has such a closure)."
  },
  {
   "property": "C55",
   "status": "proved",
   "theorems": [
    "C55_one_reservation",
    "C55_no_maintenance_while_reserved",
    "C55_reserved_is_absent",
    "C55_death_releases"
   ],
   "note": ""
  },
  {
   "property": "C56",
   "status": "partial",
   "theorems": [
    "C56_published_survives_partial",
    "C56_published_survives_refuted"
   ],
   "note": "Holds when the shard directory was already durable; a directory freshly made by create_dir_all is never fsynced in its parent, so its first product can vanish (refuted)."
  },
  {
   "property": "C57",
   "status": "proved",
   "theorems": [
    "C57_wasm_payload_exact",
    "C57_wasm_other_key_rejected",
    "C57_wasm_round_trip",
    "C57_valid_id_is_safe",
    "C57_paths_are_distinct"
   ],
   "note": ""
  },
  {
   "property": "C58",
   "status": "proved",
   "theorems": [
    "C58_remove_nil_keeps",
    "C58_remove_nil_adds_nothing",
    "C58_remove_nil_removes",
    "C58_subtract_keeps",
    "C58_subtract_adds_nothing",
    "C58_subtract_removes",
    "C58_make_nilable"
   ],
   "note": ""
  },
  {
   "property": "C59",
   "status": "proved",
   "theorems": [
    "C59_never_panics",
    "C59_foreign_fact_panics",
    "C59_facts_for",
    "C59_facts_matching_owner",
    "C59_facts_matching_owner_name",
    "C59_facts_in_file",
    "C59_all_facts",
    "C59_names_for_owner",
    "C59_slots_reused"
   ],
   "note": "At most 2^32 facts in force at any time."
  },
  {
   "property": "C60",
   "status": "proved",
   "theorems": [
    "C60_never_panics",
    "C60_missing",
    "C60_unique",
    "C60_ambiguous",
    "C60_order_independent"
   ],
   "note": ""
  },
  {
   "property": "C61",
   "status": "proved",
   "theorems": [
    "C61_never_panics",
    "C61_foreign_fact_panics",
    "C61_facts_in_file",
    "C61_history_independent",
    "C61_all"
   ],
   "note": ""
  },
  {
   "property": "C62",
   "status": "proved",
   "theorems": [
    "C62_never_panics",
    "C62_foreign_candidate_panics",
    "C62_candidates_in_file",
    "C62_all",
    "C62_method_candidates_named",
    "C62_file_ids",
    "C62_problems",
    "C62_problems_never_panic",
    "C62_last_replacement"
   ],
   "note": ""
  },
  {
   "property": "C63",
   "status": "proved",
   "theorems": [
    "C63_never_panics",
    "C63_facts_for",
    "C63_facts_for_in_force",
    "C63_facts_for_order",
    "C63_facts_for_added",
    "C63_order_restored",
    "C63_facts_in_file",
    "C63_all_facts",
    "C63_last_replacement",
    "C63_foreign_fact_panics"
   ],
   "note": "At most 2^32 facts in force, 2^31 named subjects and 2^32 types; a fact about an expression carries the expression's range (asserted by the code)."
  },
  {
   "property": "C64",
   "status": "proved",
   "theorems": [
    "C64_type_at",
    "C64_ambiguous_once",
    "C64_type_at_determined",
    "C64_named_type",
    "C64_named_determined",
    "C64_latest_known"
   ],
   "note": "Listing each alternative once needs that no two types print alike."
  },
  {
   "property": "C65",
   "status": "proved",
   "theorems": [
    "C65_update",
    "C65_only_types",
    "C65_declared_returns_survive"
   ],
   "note": ""
  },
  {
   "property": "C66",
   "status": "partial",
   "theorems": [
    "C66_cached_chains_partial",
    "C66_replacement_clears",
    "C66_stale_chain_refuted"
   ],
   "note": "Refuted: resolve calls add edges without clearing the caches. Proved for histories without a lookup between a replacement and the next resolve call."
  },
  {
   "property": "C67",
   "status": "proved",
   "theorems": [
    "C67_module_includers"
   ],
   "note": ""
  },
  {
   "property": "C68",
   "status": "partial",
   "theorems": [
    "C68_linter_position_sound",
    "C68_linter_position_partial",
    "C68_last_line_refuted"
   ],
   "note": "Refuted for an offense on the empty line after the final line break; columns are counted in bytes, as the code does."
  },
  {
   "property": "C69",
   "status": "proved",
   "theorems": [
    "C69_document_end"
   ],
   "note": ""
  },
  {
   "property": "C70",
   "status": "partial",
   "theorems": [
    "C70_no_panic",
    "C70_sound_partial",
    "C70_arity_reported",
    "C70_keywords_reported",
    "C70_complete_partial",
    "C70_destructuring_refuted",
    "C70_spelling_refuted",
    "C70_no_keywords_refuted"
   ],
   "note": "Soundness against Ruby 3 argument passing for every splat value, the contents of each message, completeness for calls in sight, no panic. Partial: false of methods with destructured parameters (dropped from the recorded list) and of keys spelled with escapes, both refuted; silent about keywords passed to **nil (refuted) and, on purpose, when the last positional argument may be a Hash."
  },
  {
   "property": "C71",
   "status": "partial",
   "theorems": [
    "C71_distance",
    "C71_keyword",
    "C71_method_offered",
    "C71_method_partial",
    "C71_method_order",
    "C71_method_refuted"
   ],
   "note": "Edit distance is the minimum over all edit sequences; the keyword offered is the nearest; so is the method offered when names are ASCII. Partial: with other names the methods are first filtered by byte length, which hides near ones (refuted)."
  },
  {
   "property": "C72",
   "status": "partial",
   "theorems": [
    "C72_exact_partial",
    "C72_nothing",
    "C72_meaning_partial",
    "C72_keys_partial",
    "C72_head_refuted",
    "C72_keyword_refuted",
    "C72_block_local_refuted",
    "C72_shorthand_refuted",
    "C72_capture_refuted"
   ],
   "note": "Edits are exactly the occurrences, and binding is preserved, for every program whose class and definition heads use no local variable and for variables that are no keyword parameter or block local. Partial: those three and {x:} are refuted, and the new name is not checked against names in use (refuted)."
  },
  {
   "property": "C73",
   "status": "partial",
   "theorems": [
    "C73_chains",
    "C73_all_partial",
    "C73_well_placed",
    "C73_overlap_refuted",
    "C73_reply",
    "C73_contains"
   ],
   "note": "All of the statement is proved; C73_all_partial adds that all locations around the place are offered where they are nested. Partial only in that overlapping locations (the message and arguments of an index assignment) cannot both be offered (refuted)."
  },
  {
   "property": "C74",
   "status": "partial",
   "theorems": [
    "C74_folds_partial",
    "C74_lines_partial",
    "C74_no_panic",
    "C74_body_refuted",
    "C74_kinds_refuted",
    "C74_end_refuted"
   ],
   "note": "Proved for constructs outside method bodies of eleven kinds in files that end in a newline. Refuted: nothing inside a method folds; unless, until, case/in, class << and lambdas never fold; the last construct of a file without final newline folds to a line that does not exist."
  },
  {
   "property": "C75",
   "status": "partial",
   "theorems": [
    "C75_definition_partial",
    "C75_references_partial",
    "C75_sound",
    "C75_captured_refuted",
    "C75_shadowed_refuted",
    "C75_leak_refuted",
    "C75_keyword_refuted",
    "C75_start_refuted",
    "C75_modifier_refuted",
    "C75_head_refuted",
    "C75_repeated_refuted",
    "C75_typed_refuted"
   ],
   "note": "Soundness holds of every program and history. Exactness is proved for programs without keyword or block parameters, without assignments from a block to an outer variable, without variables in lambda literals, singleton classes and class heads of their own, and where no outer scope has another variable of that name; each of these exclusions is refuted by a program."
  },
  {
   "property": "C76",
   "status": "partial",
   "theorems": [
    "C76_exact",
    "C76_unambiguous",
    "C76_strings",
    "C76_arity",
    "C76_kind_partial",
    "C76_kind_refuted",
    "C76_depth_refuted"
   ],
   "note": "Acceptance and meaning are proved exact for all bytes and limits. Partial: the kind of a record without components is wrong (refuted; the rest is C76_kind_partial), and arrays of annotation values nest past the depth limit (refuted)."
  },
  {
   "property": "C77",
   "status": "partial",
   "theorems": [
    "C77_never_runs_partial",
    "C77_marks_all",
    "C77_dead_code_found",
    "C77_loop_refuted",
    "C77_own_method_refuted",
    "C77_for_refuted",
    "C77_kinds_refuted"
   ],
   "note": "Proved against an execution relation for all programs and executions, except where it is false: a bare loop ended by StopIteration, the program's own methods named like raise, exit or abort, and a break in the collection of a for (each refuted)."
  },
  {
   "property": "C78",
   "status": "partial",
   "theorems": [
    "C78_runs",
    "C78_denied",
    "C78_undefined",
    "C78_sound",
    "C78_shadow_refuted",
    "C78_reopened_refuted",
    "C78_self_method_refuted",
    "C78_private_def_refuted",
    "C78_private_class_method_refuted",
    "C78_on_self_refuted",
    "C78_constructor_refuted",
    "C78_method_missing_refuted",
    "C78_redundant_refuted",
    "C78_module_refuted"
   ],
   "note": "Proved against a method table built by loading the program, for names every class defines once and before changing their visibility. Partial: ten corners are refuted, among them private methods called on self, private def, class methods below private, constructors below private, and a private method overriding a public one."
  },
  {
   "property": "C79",
   "status": "partial",
   "theorems": [
    "C79_super",
    "C79_module_refuted",
    "C79_constructor_refuted"
   ],
   "note": "Proved for every receiver that shares the ancestors of the class beyond it. Refuted for super in a module, where the receiver's class matters, and in a constructor, which is filed as a class method."
  },
  {
   "property": "C80",
   "status": "partial",
   "theorems": [
    "C80_reads_partial",
    "C80_straight_reads_partial",
    "C80_first_pass_refuted",
    "C80_rotation_refuted",
    "C80_break_refuted",
    "C80_block_write_refuted",
    "C80_argument_write_refuted",
    "C80_or_write_refuted",
    "C80_op_write_refuted",
    "C80_exception_refuted",
    "C80_ensure_refuted",
    "C80_untyped_parameter_refuted",
    "C80_reassigned_guard_refuted",
    "C80_instance_of_refuted",
    "C80_protected_guard_refuted",
    "C80_object_operand_refuted",
    "C80_retry_refuted",
    "C80_safe_guard_refuted",
    "C80_empty_else_refuted",
    "C80_loop_value_refuted",
    "C80_safe_call_refuted",
    "C80_break_value_refuted",
    "C80_next_refuted"
   ],
   "note": "Proved for every run of every program in the fragment given by simple and ready (no hidden assignment to a tracked variable, guards which tell, loops that settle); outside it the property is false, by one witness program for each excluded construct."
  },
  {
   "property": "C81",
   "status": "partial",
   "theorems": [
    "C81_return_partial",
    "C81_straight_return_partial",
    "C81_block_return_refuted",
    "C81_loop_refuted",
    "C81_stopped_loop_refuted"
   ],
   "note": "Proved in the same fragment when no return is hidden in a block; false for a return inside a block, for a loop as the last expression and for a loop ended by StopIteration."
  },
  {
   "property": "C82",
   "status": "partial",
   "theorems": [
    "C82_open_documents",
    "C82_index_partial",
    "C82_scopes_partial",
    "C82_watched_reopen_refuted",
    "C82_not_retried_refuted",
    "C82_broken_text_refuted",
    "C82_scopes_after_open_refuted"
   ],
   "note": "Versions and texts proved without restriction. The facts are those of the shown text for every edited document, and for a document only opened if no watched-file notification named it and it has at most ten syntax errors, when its analysis cannot fail. False otherwise: four witness runs."
  },
  {
   "property": "C83",
   "status": "partial",
   "theorems": [
    "C83_closed_file_partial",
    "C83_discarded_edit_refuted",
    "C83_skipped_while_open_refuted",
    "C83_overtaken_refuted"
   ],
   "note": "Proved from any state at rest, if the file stays out of the editor and its content on disk does not change any more and is announced. False when an edit is discarded, when the file was open at the announcement, and when two announcements overlap."
  },
  {
   "property": "C84",
   "status": "proved",
   "theorems": [
    "C84_batches",
    "C84_nothing_lost",
    "C84_postponed_refuted"
   ],
   "note": "For every order of wake-ups. How long a change may be postponed is unbounded, which the last theorem shows."
  },
  {
   "property": "C85",
   "status": "proved",
   "theorems": [
    "C85_one_sender_in_order",
    "C85_latest_shown",
    "C85_drains",
    "C85_starved_refuted"
   ],
   "note": "For every interleaving. While publications go on, a document may starve, which the last theorem shows."
  },
  {
   "property": "C86",
   "status": "partial",
   "theorems": [
    "C86_nil_call_refuted"
   ],
   "note": "False in every run: diagnostics are only ever generated for a document whose scopes are empty, and the check then returns nothing."
  },
  {
   "property": "C87",
   "status": "partial",
   "theorems": [
    "C87_can_receive_partial",
    "C87_receives_partial",
    "C87_keyword_partial",
    "C87_after_rest_refuted",
    "C87_after_optional_refuted",
    "C87_destructured_refuted",
    "C87_anonymous_keywords_refuted"
   ],
   "note": "For parameter lists without destructuring and commas written directly behind the arguments: the highlighted parameter takes the argument in some legal call; in the call as it stands if no required parameters follow optional or rest ones (or all are given); keywords go to their parameter or the named **rest. Otherwise false, as the four refutations show."
  },
  {
   "property": "C88",
   "status": "partial",
   "theorems": [
    "C88_innermost",
    "C88_argument_partial",
    "C88_space_before_comma_refuted",
    "C88_comment_refuted",
    "C88_block_argument_refuted",
    "C88_behind_parenthesis_refuted"
   ],
   "note": "Innermost among the calls whose name ends before the cursor and whose end and block lie behind it, for every parse tree. The argument is that of the commas before the cursor if no blank stands before a comma. A block argument and the place behind a closing parenthesis are attributed to the wrong call; blanks before a comma and commas in comments shift the argument."
  },
  {
   "property": "C89",
   "status": "partial",
   "theorems": [
    "C89_found",
    "C89_ranks",
    "C89_sound",
    "C89_complete",
    "C89_top_level_sound",
    "C89_top_level_complete",
    "C89_order",
    "C89_once",
    "C89_once_refuted",
    "C89_letters_refuted",
    "C89_full_name_refuted",
    "C89_whole_word_refuted",
    "C89_best_first_refuted"
   ],
   "note": "All but the last clause is proved without restriction. Each entry comes once only if no two entries share name and place but differ in kind or container (refuted otherwise, over two overlapping folders). Also refuted: the letters behind the query's capitals count; a full name finds its symbol; whole words rank above scattered letters; the best match comes first."
  },
  {
   "property": "C90",
   "status": "partial",
   "theorems": [
    "C90_method_round_trip",
    "C90_method_text",
    "C90_namespace_round_trip",
    "C90_namespace_text",
    "C90_method_print_inj",
    "C90_ruby_names_partial",
    "C90_singleton_refuted",
    "C90_unary_refuted"
   ],
   "note": "Proved for methods and namespaces. A singleton class's text cannot be read back (refuted). Every word and operator of Ruby is accepted as method name except !, ~ and the backquote (refuted). Generated owners are not modelled."
  },
  {
   "property": "C91",
   "status": "proved",
   "theorems": [
    "C91_incoming",
    "C91_outgoing",
    "C91_directions_agree",
    "C91_unknown"
   ],
   "note": "For every history of the reference index that the code can make. A method's text does not tell class methods from instance methods, so Foo.bar and Foo#bar are one item; calls at top level have no caller and are not listed."
  },
  {
   "property": "C92",
   "status": "partial",
   "theorems": [
    "C92_supertypes",
    "C92_subtypes",
    "C92_undefined",
    "C92_directions_agree",
    "C92_once_refuted",
    "C92_superclass_refuted",
    "C92_order_refuted",
    "C92_open_further_refuted"
   ],
   "note": "The statement is proved as a set with multiplicities. Refuted: a supertype comes once; a class reopened without superclass keeps only its superclass; mixins come in the order of the source; every item shown can be opened further."
  },
  {
   "property": "C93",
   "status": "partial",
   "theorems": [
    "C93_outline",
    "C93_visibility_partial",
    "C93_order_refuted",
    "C93_private_def_refuted",
    "C93_receiver_refuted",
    "C93_top_level_refuted",
    "C93_initialize_refuted",
    "C93_class_private_refuted",
    "C93_attributes_refuted"
   ],
   "note": "Names, kinds, ranges and nesting are proved for every located tree; the order among children is reversed (refuted). Visibility is proved for programs whose modifiers are bare statements of class bodies; outside of those it is refuted by five examples. Symbols of extensions are not modelled."
  },
  {
   "property": "C94",
   "status": "partial",
   "theorems": [
    "C94_projects",
    "C94_disjoint",
    "C94_inside",
    "C94_fails",
    "C94_configured",
    "C94_unconfigured",
    "C94_always_a_project_refuted",
    "C94_every_file_refuted",
    "C94_link_refuted"
   ],
   "note": "Proved for every tree: the set, order and disjointness of the projects, exactly when the search fails, and exactly which configured roots are accepted. Refuted: every folder has a project (one unreadable directory suffices); every file of a folder belongs to a project; configured roots cover the folder as the editor names it (opened through a link they do not)."
  },
  {
   "property": "C95",
   "status": "partial",
   "theorems": [
    "C95_registered",
    "C95_isolated",
    "C95_nearest",
    "C95_engine_kept",
    "C95_engine_dropped",
    "C95_rehome",
    "C95_found_inside",
    "C95_reached_from",
    "C95_only_project",
    "C95_own_project",
    "C95_rehome_external_refuted",
    "C95_rehome_link_refuted",
    "C95_rebuild_refuted"
   ],
   "note": "Proved for every history. C95_rehome assumes that what is found in a folder lies in it, which C95_found_inside shows for the search. Refuted: documents outside of all projects are opened anew when their project goes; so are those in configured projects of a folder behind a link; a rebuild keeps the project an outside document was reached from."
  },
  {
   "property": "C96",
   "status": "partial",
   "theorems": [
    "C96_require_partial",
    "C96_require_rb",
    "C96_relative_partial",
    "C96_found",
    "C96_reported",
    "C96_at_cursor",
    "C96_bare_name_refuted",
    "C96_native_refuted",
    "C96_gone_refuted",
    "C96_dot_refuted"
   ],
   "note": "Proved for every disk, with the engine knowing only files on it: features written with .rb lead to the first on the load path, those without lead there when no file of the bare name lies on it; the reports and the call at the cursor are exact. Refuted: a file without extension hides the Ruby file Ruby loads; native libraries are reported; files gone from the disk count as found; require './x' prefers lib."
  },
  {
   "property": "C97",
   "status": "partial",
   "theorems": [
    "C97_type_partial",
    "C97_list_partial",
    "C97_tag_partial",
    "C97_union",
    "C97_nesting_unbounded",
    "C97_nested_map_refuted",
    "C97_map_in_array_refuted",
    "C97_map_in_list_refuted",
    "C97_capitals_refuted",
    "C97_order_refuted",
    "C97_mismatch_refuted",
    "C97_ignore_case",
    "C97_nameless"
   ],
   "note": "Proved for types of any depth whose braces, if any, are at the outside, and the union for every list of texts whatever. Refuted: a hash with braces inside another or inside an array with a further element is read as one of anything or falls apart at its comma; classes called Void, Nil, True, False, Bool are taken for the words; unions depend on the order of their members. Since comments keep the order written, for every signature one of two equal comments is reported to differ from it."
  },
  {
   "property": "C98",
   "status": "partial",
   "theorems": [
    "C98_attached",
    "C98_comment",
    "C98_description",
    "C98_tags",
    "C98_param",
    "C98_param_types_first",
    "C98_return",
    "C98_yieldparam",
    "C98_yieldreturn",
    "C98_raise",
    "C98_marks",
    "C98_availability_refuted",
    "C98_modifier_refuted",
    "C98_blank_lines_refuted",
    "C98_mention_refuted",
    "C98_columns_refuted",
    "C98_lines",
    "C98_option",
    "C98_availability"
   ],
   "note": "The comment attached, its description and its tags hold as stated. The rest is refuted: both availability tags panic, a modifier before def loses the comment, blank lines do not cut it off, tags are found inside other tags, and columns are bytes."
  },
  {
   "property": "C99",
   "status": "partial",
   "theorems": [
    "C99_type_partial",
    "C99_no_type",
    "C99_parameter_refuted",
    "C99_after_map_refuted",
    "C99_columns_refuted",
    "C99_closing_partial",
    "C99_closing_refuted"
   ],
   "note": "Proved for types without braces in any brackets of a line that is ASCII up to the type. Refuted for parameters of types, after a type with braces, after letters outside ASCII, and on the bracket that closes several types, where the answer is the whole text between the brackets."
  },
  {
   "property": "C100",
   "status": "partial",
   "theorems": [
    "C100_numbers",
    "C100_names",
    "C100_overlay",
    "C100_mri_output",
    "C100_jruby_output",
    "C100_truffle_output",
    "C100_version_file",
    "C100_gemfile",
    "C100_rbenv",
    "C100_system",
    "C100_pessimistic_refuted",
    "C100_engine_refuted",
    "C100_rvm_refuted",
    "C100_dev_refuted"
   ],
   "note": "Names, outputs and precedence proved for all texts. Refuted corners: ruby with a pessimistic constraint in a Gemfile is never read though the code means to; the engine option of a Gemfile is ignored or spoils the version; a .rvmrc that uses jruby is read as MRI; X.Y-dev is not read. Running the commands and finding the files is not modelled."
  },
  {
   "property": "C101",
   "status": "partial",
   "theorems": [
    "C101_complete",
    "C101_ordered",
    "C101_same_report",
    "C101_totals",
    "C101_exit",
    "C101_indexed_once",
    "C101_paths",
    "C101_root",
    "C101_arguments",
    "C101_target",
    "C101_no_directory_refuted"
   ],
   "note": "Proved over all workspaces and command lines. The indexing run itself, reading the files again and the rendering to text or JSON are not modelled. Refuted corner: with no current directory the command fails even when an absolute path is given."
  },
  {
   "property": "C102",
   "status": "partial",
   "theorems": [
    "C102_kind_partial",
    "C102_word_partial",
    "C102_namespace_partial",
    "C102_inside_refuted",
    "C102_accent_refuted",
    "C102_symbol_refuted",
    "C102_short_refuted",
    "C102_astral_refuted",
    "C102_range_refuted",
    "C102_nested_refuted"
   ],
   "note": "For text that is ASCII up to the cursor: the request is always answered, and the kind of candidates and the text they must start with are exactly the ones the line demands. Refuted beyond ASCII: the column of the editor is used as a byte offset, so the request panics right after a non-ASCII character, and at every position of a word that follows a non-ASCII symbol; elsewhere the text is cut short (a dot is missed), and two colons after a character outside the basic plane are not seen. Also refuted: a range a..b is taken for a call, and after A::B:: the text fallback asks for the top level."
  },
  {
   "property": "C103",
   "status": "partial",
   "theorems": [
    "C103_sound",
    "C103_ordered",
    "C103_complete",
    "C103_first",
    "C103_twin_refuted",
    "C103_unreachable_refuted",
    "C103_crowded_refuted"
   ],
   "note": "Soundness, order and limit proved for all declarations; completeness as long as at most fifty paths match, and otherwise whatever is missing comes after everything offered. Refuted: of two constants with the same last name only one can be chosen; a constant in another namespace is inserted as its bare last name, which does not reach it; fifty namespaces that share a name crowd out every later constant, because the limit is applied before the doubles are dropped."
  },
  {
   "property": "C104",
   "status": "partial",
   "theorems": [
    "C104_once",
    "C104_answered",
    "C104_single",
    "C104_union",
    "C104_return",
    "C104_mixed_refuted",
    "C104_parameters_refuted",
    "C104_private_refuted",
    "C104_class_objects_refuted",
    "C104_namesake_refuted"
   ],
   "note": "Exactness proved for every receiver of one type, and for unions up to the source: a method is offered if the project gives it to all members, or the core signatures do. Refuted: a method one member has from the project and another from the core signatures is missing; so is one whose parameters are named differently; private methods are offered after an explicit receiver; for a value that is one of several classes the instance methods are offered; a class of the project gets the core methods of a core class with the same last name. The lookup order itself is an argument here."
  },
  {
   "property": "C105",
   "status": "partial",
   "theorems": [
    "C105_place",
    "C105_constant",
    "C105_number",
    "C105_symbol",
    "C105_string",
    "C105_items",
    "C105_constructor",
    "C105_float_refuted",
    "C105_nested_refuted",
    "C105_top_refuted",
    "C105_block_refuted",
    "C105_element_refuted",
    "C105_underscore_refuted",
    "C105_chain_refuted",
    "C105_elsewhere_refuted",
    "C105_false_refuted",
    "C105_array_refuted"
   ],
   "note": "Proved for all texts of the given shapes. Refuted: 1.5 is read as an Integer, A::B as the top-level B, ::B as a Symbol, a call with a block in braces as a Hash, an element of a literal array as an Array, _ as an Integer, a.b as the local variable b; an assignment anywhere in the file counts, and what is called on the new object is forgotten; an array of false is one of true; an array literal that does not begin the line gets no methods. Only the reading of the text is modelled; the choices made from the syntax tree are not."
  },
  {
   "property": "C106",
   "status": "partial",
   "theorems": [
    "C106_index_partial",
    "C106_index_any",
    "C106_index_tight",
    "C106_fetch_partial",
    "C106_dig_partial",
    "C106_keys",
    "C106_values",
    "C106_generic",
    "C106_presence_partial",
    "C106_rest_key_refuted"
   ],
   "note": "Proved for all shapes; literal keys need the type of the remaining keys, where there is one, to take in a symbol or string only together with its whole class. Refuted without that: with a literal as the type of the remaining keys, a key that is there is read as nil and reported missing. Only the loader of external facts can build such a type. The table of method names and each/each_pair are not modelled."
  },
  {
   "property": "C107",
   "status": "partial",
   "theorems": [
    "C107_literal_partial",
    "C107_hash_partial",
    "C107_array",
    "C107_total",
    "C107_errors",
    "C107_exact",
    "C107_array_tight",
    "C107_hash_tight",
    "C107_class",
    "C107_texts",
    "C107_index_tight",
    "C107_declared_partial",
    "C107_bare_return",
    "C107_several_returned",
    "C107_no_declaration",
    "C107_warning",
    "C107_index_refuted",
    "C107_part_refuted",
    "C107_statements_refuted",
    "C107_optional_splat_refuted",
    "C107_return_refuted",
    "C107_superclass_refuted",
    "C107_unchecked_refuted"
   ],
   "note": "Soundness is proved for all literals without an index beyond or across an array literal and without lists of several statements; for hashes typed from parts, without optional keys in splats. The check of the declared type is proved complete for a last statement of known type. Refuted: [\"a\"][5] and [\"a\", \"b\"][0, 1] are typed String; statements are typed by the first of them; {a: 1, **h} loses the 1 when h has an optional a; return foo is taken for nil and warned about; a declared superclass is warned about; a method without a body or with an earlier return is not checked. Numbers and positions are not modelled."
  },
  {
   "property": "C108",
   "status": "partial",
   "theorems": [
    "C108_target",
    "C108_receiver",
    "C108_keys",
    "C108_where",
    "C108_complete",
    "C108_possible",
    "C108_present",
    "C108_insert_symbol",
    "C108_insert_string",
    "C108_raw_symbol_refuted",
    "C108_raw_string_refuted",
    "C108_bracket_refuted"
   ],
   "note": "That an accepted key reads back is proved for symbols made of name characters and for strings without quotes, backslashes and hash signs, and refuted for the others, which are inserted as they are. The receiver in front of the cursor is refuted between the brackets of an index call."
  },
  {
   "property": "C109",
   "status": "partial",
   "theorems": [
    "C109_double_partial",
    "C109_literals",
    "C109_locals",
    "C109_silent",
    "C109_single_refuted",
    "C109_nil_refuted",
    "C109_namesake_refuted",
    "C109_array_refuted",
    "C109_single_all"
   ],
   "note": "Proved for two stars, for literals and for variables of a class at the top level. The warning about one star is refuted in every case it is given: Ruby makes a list of any value. Refuted too for a variable that is nil in Ruby 3.4 and later and for classes that share only the last name with a core class; a variable holding an array is not reported."
  },
  {
   "property": "C110",
   "status": "partial",
   "theorems": [
    "C110_iff",
    "C110_unique",
    "C110_script_refuted"
   ],
   "note": "Proved both ways for every file against PKWARE's layout, and that the layout determines the entries; refuted: an archive with a script in front of it is refused although Java reads it."
  },
  {
   "property": "C111",
   "status": "partial",
   "theorems": [
    "C111_fit",
    "C111_selected",
    "C111_no_panic",
    "C111_old_release_refuted",
    "C111_section_refuted",
    "C111_misplaced_refuted",
    "C111_cut_refuted"
   ],
   "note": "Proved for every archive: when it is read, which classes are found and in which order, no panic. Refuted: a directory for a release before 9 or one misplaced class loses the whole archive, Multi-Release counts outside the main section, an entry that claims exactly the bound is cut short."
  },
  {
   "property": "C112",
   "status": "partial",
   "theorems": [
    "C112_every_value",
    "C112_every_hint_partial",
    "C112_labels",
    "C112_no_constants",
    "C112_order",
    "C112_else_refuted",
    "C112_constant_refuted",
    "C112_endless_refuted"
   ],
   "note": "Every place the value can come from has the hint, for every run of every method outside assignments to constants; every hint is such a place when there is no dead code on the way; labels exact; order. Missing because false: with begin/rescue/else the body's last expression has the hint though its value is dropped, methods written in the value of a constant have neither hints nor labels, and an endless method gets the label of an end that is not there."
  },
  {
   "property": "C113",
   "status": "partial",
   "theorems": [
    "C113_names_partial",
    "C113_mixins",
    "C113_classes",
    "C113_users_partial",
    "C113_users_shown",
    "C113_path_refuted",
    "C113_root_refuted",
    "C113_extend_refuted",
    "C113_singleton_refuted"
   ],
   "note": "Names exact for ordinary heads; the mixin lenses exact for every graph; the search for classes ends and is exact for every graph, and is exactly the users when no module extends a module; every user is shown. Missing because false: modules inside A::B or named from the top get the lenses of another module, a class that includes a module which extends M is counted for M, and an include in class << self is not shown."
  },
  {
   "property": "C114",
   "status": "partial",
   "theorems": [
    "C114_parse",
    "C114_default",
    "C114_imported",
    "C114_distinct_partial",
    "C114_distinct_refuted",
    "C114_constant_refuted"
   ],
   "note": "Exact acceptance and reading; the imported constant; distinct Ruby names for conventional packages. Missing because false: a.b.C and aB.C share the name Java::AB::C, and a class whose name begins with a small letter gets a Ruby name that is no constant."
  },
  {
   "property": "C115",
   "status": "partial",
   "theorems": [
    "C115_read",
    "C115_writable",
    "C115_parameters",
    "C115_flags",
    "C115_kind",
    "C115_types",
    "C115_next_refuted",
    "C115_static_refuted",
    "C115_field_refuted",
    "C115_constant_lost_refuted",
    "C115_constructor_refuted",
    "C115_twice_refuted",
    "C115_outer_refuted"
   ],
   "note": "Proved for every class file: what Ruby reads from the generated file, when one is generated, parameters, and that flags, kinds and types are those of the JVM specification. Missing because false: methods named as a Ruby keyword (Iterator#next) are lost, private static methods, constructors and fields are public, constants with a small letter are lost, new is documented to return nil, two parameters may get one name, and an outer interface is a module in one file and a class in another."
  },
  {
   "property": "C116",
   "status": "partial",
   "theorems": [
    "C116_sound_partial",
    "C116_substituted_partial",
    "C116_exact",
    "C116_method_partial",
    "C116_void_refuted",
    "C116_tuple_refuted",
    "C116_own_parameter_refuted",
    "C116_unbound_refuted",
    "C116_overload_refuted"
   ],
   "note": "Proved: no value is lost, with and without type arguments, for every type without void and without type parameters in tuples; and exactness for the types that are kept whole. Missing because false: void becomes nil, parameters in tuples are not replaced, a method's own parameters and those without argument become classes of their name, and only the first overload counts."
  },
  {
   "property": "C117",
   "status": "partial",
   "theorems": [
    "C117_sound_partial",
    "C117_receiver",
    "C117_proven",
    "C117_accumulator_refuted",
    "C117_compatible_refuted"
   ],
   "note": "Proved: the type given describes every value returned by any method that keeps one of the signatures that take the arguments, if the block's result does not change the types announced for its parameters and types found compatible are included in the expected ones; and the receiver is put in everywhere. Missing because false: when the block's result widens an accumulator (inject) the block is not typed again; and compatibility goes either way, so a Symbol counts as one given symbol."
  },
  {
   "property": "C118",
   "status": "partial",
   "theorems": [
    "C118_template",
    "C118_keeps",
    "C118_sound_partial",
    "C118_made",
    "C118_record_refuted",
    "C118_void_refuted"
   ],
   "note": "Proved: template and RBS type have the same values, a call keeps the signature exactly if it keeps the RBS type, and with C117 the type given describes what is returned, for types made of variables, classes, Array, Hash, unions, optional types, self, bool, nil, untyped and literals; and for all types that the signature holds nothing unknown. Missing because false: a type parameter in a record becomes a class of its name, and a block declared to return void must return nil for the call to get a type. Missing: integer literals, which are widened, and boolish and bot, which become unconstrained."
  },
  {
   "property": "C119",
   "status": "partial",
   "theorems": [
    "C119_unchanged",
    "C119_sound_partial",
    "C119_static_partial",
    "C119_changed",
    "C119_collector",
    "C119_fewer_names_refuted",
    "C119_never_run_refuted"
   ],
   "note": "Proved: types after the block equal to those announced change nothing, so that the type is sound as in C117; only hashes may change; the same for &:name; the fact collector's list has a type for every parameter. Missing because false: in the type tracker a block that names fewer parameters than are yielded gives no type, and the type of a changed hash replaces the one before though the block may never be run."
  }
 ]
}