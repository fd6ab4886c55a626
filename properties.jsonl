{"id": "C01", "title": "Indexing concurrency is bounded", "statement": "After any sequence of register / wait / cancel / drop-admission / drop-permit / prioritize calls on one IndexingScheduler, the number of permits held by callers never exceeds the concurrency limit given to new, and snapshot().active is exactly the number of permits held.", "quantifier": "every limit > 0, every interleaving of the scheduler operations by any number of callers", "why_tests_cant": "The number of interleavings is unbounded; a test fixes one schedule.", "anchors": ["src/indexing_scheduler.rs::IndexingScheduler::register_cancellable", "src/indexing_scheduler.rs::IndexingAdmission::wait", "src/indexing_scheduler.rs::IndexingPermit::drop"]}
{"id": "C02", "title": "One generation per project", "statement": "At no point do two callers hold permits for the same project root, and none of the scheduler's internal invariant assertions (duplicate project, zero active on release, missing project on release, fairness burst exceeded) can fire.", "quantifier": "every schedule and every assignment of project roots to requests", "why_tests_cant": "A race between two generations of one project shows up only under particular poll orders.", "anchors": ["src/indexing_scheduler.rs::IndexingAdmission::wait", "src/indexing_scheduler.rs::IndexingPermit::drop"]}
{"id": "C03", "title": "Admission order", "statement": "A request is admitted only if its project is idle and no other request of an idle project is better: lower (priority, arrival) wins, except that after one priority admission that overtook waiting background work the earliest-arrived admissible background request is admitted.", "quantifier": "every reachable scheduler state", "why_tests_cant": "Queue contents and swap_remove permutations are unbounded; tests pin a few orders.", "anchors": ["src/indexing_scheduler.rs::best_admissible_entry_index_with_fairness", "src/indexing_scheduler.rs::best_admissible_entry_index"]}
{"id": "C04", "title": "Background indexing is not starved", "statement": "While a background request stays queued, of background priority and of an idle project, the number of admissions of other requests is bounded by 2*(number of older background requests)+1, whatever active/open-document requests keep arriving.", "quantifier": "every infinite supply of higher-priority requests and every schedule", "why_tests_cant": "Starvation freedom is a statement about unbounded runs.", "anchors": ["src/indexing_scheduler.rs::best_admissible_entry_index_with_fairness", "src/indexing_scheduler.rs::MAX_PRIORITY_ADMISSIONS_WHILE_BACKGROUND_WAITS"]}
{"id": "C05", "title": "Open-document indexing is not starved", "statement": "While an open-document request stays queued for an idle project the number of admissions that overtake it is bounded.", "quantifier": "every infinite supply of other requests and every schedule", "why_tests_cant": "Starvation freedom is a statement about unbounded runs.", "anchors": ["src/indexing_scheduler.rs::best_admissible_entry_index"]}
{"id": "C06", "title": "Scheduler never sleeps on available work", "statement": "Whenever fewer than the limit permits are held and some queued request belongs to an idle project, the request that would be admitted next is awake (it has an undelivered wake-up or has not yet gone to sleep), so no wake-up is lost.", "quantifier": "every reachable state of the scheduler together with the sleeping/awake state of every waiter", "why_tests_cant": "Lost wake-ups occur only in specific interleavings of notify and wait.", "anchors": ["src/indexing_scheduler.rs::IndexingAdmission::wait", "src/indexing_scheduler.rs::QueueRegistration::drop", "src/indexing_scheduler.rs::IndexingScheduler::prioritize_active_project"]}
{"id": "C07", "title": "Cancelled admissions leave no trace", "statement": "An admission that is cancelled or dropped before being admitted never obtains a permit, its queue entry disappears, and no other queue entry is added, removed or changed by that.", "quantifier": "every reachable state and every admission", "why_tests_cant": "Depends on the position of the entry in the permuted queue and on interleavings.", "anchors": ["src/indexing_scheduler.rs::QueueRegistration::drop", "src/indexing_scheduler.rs::IndexingAdmission::wait"]}
{"id": "C08", "title": "Resource governor never over-commits", "statement": "After any sequence of acquire attempts, releases, cancellations and priority changes the sums of CPU lanes, transient memory, I/O slots and top-level tasks over the leases held by callers never exceed the policy, equal the governor's own accounting, and return to zero when all leases are dropped; no accounting assertion can fire.", "quantifier": "every policy, every mix of requests that fit the policy, every schedule", "why_tests_cant": "Multi-dimensional accounting over unbounded histories.", "anchors": ["src/indexing_resources.rs::IndexingResourceGovernor::acquire", "src/indexing_resources.rs::reserve_resources", "src/indexing_resources.rs::ActiveResourceLease::drop"]}
{"id": "C09", "title": "Navigation-pending project gets the machine", "statement": "While the active project has navigation pending, no project-parallel work of another project is admitted.", "quantifier": "every reachable governor state and request", "why_tests_cant": "State-dependent gate across unbounded histories.", "anchors": ["src/indexing_resources.rs::request_fits_available", "src/indexing_resources.rs::mark_project_navigation_pending_if_active"]}
{"id": "C10", "title": "Governor never sleeps on available work", "statement": "Whenever some queued request fits the free resources, the request the governor would admit next is awake, so admission is never delayed until an unrelated event.", "quantifier": "every reachable state of governor plus waiters", "why_tests_cant": "Lost wake-ups occur only in specific interleavings.", "anchors": ["src/indexing_resources.rs::ActiveResourceLease::drop"]}
{"id": "C11", "title": "Governor background work is not starved", "statement": "A background request that fits the policy is admitted after a bounded number of other admissions.", "quantifier": "every infinite supply of other requests", "why_tests_cant": "Starvation freedom is a statement about unbounded runs.", "anchors": ["src/indexing_resources.rs::best_admissible_entry_index"]}
{"id": "C12", "title": "Single flight: one producer per key", "statement": "For each key at most one producer runs at any time; every caller whose lookup found the key in flight receives exactly the value produced by that producer.", "quantifier": "every number of callers and keys, every interleaving of lookups and completions", "why_tests_cant": "Concurrent interleavings are unbounded.", "anchors": ["src/single_flight.rs::SingleFlightCache", "src/single_flight.rs::BoundedSingleFlightCache", "src/single_flight.rs::BlockingBoundedSingleFlightCache"]}
{"id": "C13", "title": "Failures are not cached", "statement": "A caller whose lookup starts after a producer has published a failure never receives that old failure: it starts or joins a new producer.", "quantifier": "every interleaving of the producer's publish/remove steps with other lookups", "why_tests_cant": "The window between publishing and removing the entry is only visible under an exact interleaving.", "anchors": ["src/single_flight.rs::SingleFlightCache", "src/single_flight.rs::BlockingBoundedSingleFlightCache"]}
{"id": "C14", "title": "Bounded cache respects its limits", "statement": "After each successful completion the retained completed products number at most max_entries and weigh at most max_weight; eviction removes oldest generations first, only as many as needed, and never an in-flight entry.", "quantifier": "every history of insertions with arbitrary weights", "why_tests_cant": "Unbounded histories and arbitrary weights.", "anchors": ["src/single_flight.rs::evict_completed_to_limits"]}
{"id": "C15", "title": "Single-flight counters are exact", "statement": "lookups = hits + joined + misses, and the number of producers started equals the number of misses, after any history.", "quantifier": "every history", "why_tests_cant": "Unbounded histories.", "anchors": ["src/single_flight.rs::SingleFlightSnapshot"]}
{"id": "C16", "title": "Cache envelope round trip", "statement": "decode_envelope(encode_envelope(payload)) returns payload for every payload within the limits.", "quantifier": "every payload byte string within the size limits", "why_tests_cant": "Infinite input space.", "anchors": ["src/persistent_cache.rs::encode_envelope", "src/persistent_cache.rs::decode_envelope"]}
{"id": "C17", "title": "Corrupt or foreign cache files are never accepted", "statement": "If decoding a file succeeds, the file has exactly the header layout (magic, schema, lengths, checksum) and the returned payload has the recorded length and SHA-256; every strict prefix and every extension of a valid file is rejected.", "quantifier": "every byte string", "why_tests_cant": "Infinite input space of corruptions.", "anchors": ["src/persistent_cache.rs::decode_envelope", "src/persistent_cache.rs::decode_compiled_wasm_payload"]}
{"id": "C18", "title": "Publication is crash-atomic", "statement": "If the process crashes between any two file-system steps of a publication, the product path afterwards holds either the previous complete file (or nothing) or the complete new file, never a partial file.", "quantifier": "every crash point of every publication, every previous directory content", "why_tests_cant": "Crash points cannot be enumerated by ordinary tests.", "anchors": ["src/persistent_cache.rs::publish_payload", "src/persistent_cache.rs::publish_inner"]}
{"id": "C19", "title": "Cleanup enforces limits minimally", "statement": "cleanup_to_limits leaves at most max entries and max bytes, removes the least recently modified products first, and removes no product whose removal was not needed.", "quantifier": "every directory content and limits", "why_tests_cant": "Infinite input space.", "anchors": ["src/persistent_cache.rs::cleanup_to_limits"]}
{"id": "C20", "title": "Navigation demand is bounded and conserved", "statement": "Pending plus in-flight keys per stage never exceed the maximum; a key is in at most one of pending, in-flight, processed; a requested key stays outstanding until it is completed, the stage completes, or the generation ends.", "quantifier": "every history of request/drain/claim/complete/cancel/begin calls", "why_tests_cant": "Unbounded histories.", "anchors": ["src/navigation_demand.rs::NavigationDemandController"]}
{"id": "C21", "title": "Navigation demand never crashes on legal use", "statement": "No assertion of the demand tracker can fire for callers that follow its protocol, whatever identifier the editor asks for and however stages and key completions interleave.", "quantifier": "every Unicode identifier and every protocol-following history", "why_tests_cant": "Needs all Unicode strings and all interleavings.", "anchors": ["src/navigation_demand.rs::normalize_navigation_key", "src/navigation_demand.rs::complete_keys"]}
{"id": "C22", "title": "Stale indexing runs cannot publish status", "statement": "A transition/fail/cancel carrying a generation other than the current one, or arriving after a terminal phase, changes nothing and returns None; starting a new run cancels the previous run's token.", "quantifier": "every history of runs and transitions", "why_tests_cant": "Unbounded interleavings of old and new runs.", "anchors": ["src/indexing_status.rs::begin_run", "src/indexing_status.rs::transition"]}
{"id": "C23", "title": "Indexing status is monotone", "statement": "Within a run the phase rank never decreases, progress within a phase never decreases, and every published snapshot has a strictly larger sequence number.", "quantifier": "every history", "why_tests_cant": "Unbounded histories.", "anchors": ["src/indexing_status.rs::transition"]}
{"id": "C24", "title": "Union construction is canonical", "statement": "RubyType::union does not depend on the order, duplication or grouping of its inputs, is idempotent, absorbs Unknown, and denotes exactly the union of the members' value sets.", "quantifier": "every list of types", "why_tests_cant": "Infinite input space.", "anchors": ["crates/ruby-analysis/src/core/ruby_type.rs::union", "crates/ruby-analysis/src/core/ruby_type.rs::optional", "crates/ruby-analysis/src/core/ruby_type.rs::union_with"]}
{"id": "C25", "title": "Subtyping is sound", "statement": "If is_subtype_of(a,b) then every Ruby value described by a is described by b, for all types including hash shapes.", "quantifier": "every pair of types and every value", "why_tests_cant": "Infinite input space; soundness is semantic.", "anchors": ["crates/ruby-analysis/src/core/ruby_type.rs::is_subtype_of", "crates/ruby-analysis/src/core/shape_type.rs::is_subtype_of"]}
{"id": "C26", "title": "Subtyping is a preorder", "statement": "is_subtype_of is reflexive and transitive.", "quantifier": "every triple of types", "why_tests_cant": "Infinite input space.", "anchors": ["crates/ruby-analysis/src/core/ruby_type.rs::is_subtype_of"]}
{"id": "C27", "title": "Type operations never panic", "statement": "widen_literals, remove_nil, subtract and shape mapping return a value for every type the constructors can build.", "quantifier": "every constructible type", "why_tests_cant": "Infinite input space.", "anchors": ["crates/ruby-analysis/src/core/ruby_type.rs::widen_literals", "crates/ruby-analysis/src/core/shape_type.rs::try_map_types"]}
{"id": "C28", "title": "Shape construction enforces its bounds", "statement": "A constructed shape has at most 32 fields, strictly sorted distinct keys, depth at most 8, only proven field types, and no rest entry when exact; every violation is reported as an error.", "quantifier": "every list of fields and every rest/exactness", "why_tests_cant": "Infinite input space.", "anchors": ["crates/ruby-analysis/src/core/shape_type.rs::ShapeType::try_new"]}
{"id": "C29", "title": "Inferred method returns are solutions", "statement": "Every method whose return is reported as proven has a type equal to the union of its proven bodies and of the proven types of all methods it returns calls to; if any of those is not proven the method is not proven.", "quantifier": "every finite system of equations, cyclic or not", "why_tests_cant": "Infinite space of call graphs.", "anchors": ["crates/ruby-analysis/src/inference/method/recursive.rs::solve_method_return_equations_with_telemetry", "crates/ruby-analysis/src/inference/method/recursive.rs::evaluate_method"]}
{"id": "C30", "title": "Method-return solving is deterministic", "statement": "The reported types do not depend on the order in which files and equations are supplied, every method with an equation gets exactly one outcome, and the solver terminates.", "quantifier": "every permutation of every equation system", "why_tests_cant": "Infinite space of call graphs and permutations.", "anchors": ["crates/ruby-analysis/src/inference/method/recursive.rs::solve_method_return_equations_with_telemetry", "crates/ruby-analysis/src/inference/method/recursive.rs::strongly_connected_components"]}
{"id": "C31", "title": "Constant-type solving always converges", "statement": "solve_constant_type_equations never reaches its non-convergence panic; a constant is typed iff all its transitive dependencies are typed, cyclic constants are Unknown, and the result is independent of equation order.", "quantifier": "every finite equation system", "why_tests_cant": "Infinite space of dependency graphs.", "anchors": ["crates/ruby-analysis/src/inference/constant.rs::solve_constant_type_equations"]}
{"id": "C32", "title": "Replacing a file replaces exactly its graph facts", "statement": "After any history of replace_file/remove_file calls the ancestry graph answers nodes_for, edges_from, edges_to, has_unresolved_explicit_superclass exactly as the map from each file to its last supplied facts prescribes, in an order that does not depend on the history.", "quantifier": "every history over every number of files and facts", "why_tests_cant": "Unbounded histories with slot reuse.", "anchors": ["crates/ruby-analysis/src/core/graph_store.rs::SemanticGraph::replace_file", "crates/ruby-analysis/src/core/graph_store.rs::SemanticGraph::remove_file", "crates/ruby-analysis/src/core/graph_store.rs::SemanticGraph::edges_from"]}
{"id": "C33", "title": "Superclass resolution", "statement": "superclass_resolution is Unique(e) iff all explicit superclass declarations (or, without explicit ones, all implicit ones) name the same target; Ambiguous iff two differ; Missing iff there are none; independent of declaration order.", "quantifier": "every set of declarations", "why_tests_cant": "Infinite input space.", "anchors": ["crates/ruby-analysis/src/core/graph_store.rs::SemanticGraph::superclass_resolution"]}
{"id": "C34", "title": "Ancestor chain is well formed", "statement": "The method-lookup chain of any namespace is computed for every (even cyclic) ancestry graph, contains no namespace twice, contains the namespace itself (unless it is the never defined singleton of the top level), and contains exactly the namespaces reachable through prepend/include/hook-extend/proven-superclass edges, followed for modules and class objects whose ancestry is proven by those of Object, and for class objects by those of Class or Module.", "quantifier": "every finite ancestry graph", "why_tests_cant": "Infinite space of graphs, including malformed ones.", "anchors": ["crates/ruby-analysis/src/engine/resolution.rs::build_mro", "crates/ruby-analysis/src/engine/resolution.rs::method_lookup_chain"]}
{"id": "C35", "title": "Ancestor chain order agrees with Ruby", "statement": "In the lookup chain every module precedes the modules it includes and its superclass, and follows the modules prepended to it, as Ruby's Module#ancestors.", "quantifier": "every acyclic ancestry graph", "why_tests_cant": "Infinite space of graphs.", "anchors": ["crates/ruby-analysis/src/engine/resolution.rs::build_mro"]}
{"id": "C36", "title": "Incremental indexing equals indexing from scratch", "statement": "After any sequence of file replacements and resolve calls, the resolved ancestry graph equals the one obtained by indexing the final contents of all files into a fresh engine.", "quantifier": "every edit history", "why_tests_cant": "Unbounded histories.", "anchors": ["crates/ruby-analysis/src/engine/state.rs::retry_unresolved_graph_edges", "crates/ruby-analysis/src/engine/state.rs::replace_facts", "crates/ruby-analysis/src/engine/state.rs::resolve_unresolved_graph_target"]}
{"id": "C37", "title": "Constant lookup is lexical", "statement": "Resolving a constant path in a namespace yields the definition in the innermost enclosing namespace that defines it, preferring a namespace over a value constant, and fails only if no enclosing namespace defines it.", "quantifier": "every set of definitions, path and context", "why_tests_cant": "Infinite input space.", "anchors": ["crates/ruby-analysis/src/engine/resolution.rs::resolve_constant_fqn", "crates/ruby-analysis/src/engine/state.rs::resolve_unresolved_graph_target"]}
{"id": "C38", "title": "Symbol index is an exact per-file index", "statement": "After any history of add/replace_file/remove_file, facts_for and facts_in_file return exactly the facts of the last replacement of each file, sorted by position; facts of other files are untouched.", "quantifier": "every history", "why_tests_cant": "Unbounded histories with slot reuse.", "anchors": ["crates/ruby-analysis/src/core/symbol_store.rs::SymbolStore", "crates/ruby-analysis/src/core/file_owned_index.rs::place_appended_file_facts"]}
{"id": "C39", "title": "Reference index is an exact per-file index", "statement": "After any history of replace_file/remove_file, facts_for(target) returns exactly the references of the last replacement of each file and facts_in_file returns each reference of the file once.", "quantifier": "every history", "why_tests_cant": "Unbounded histories.", "anchors": ["crates/ruby-analysis/src/core/reference_store.rs::ReferenceStore"]}
{"id": "C40", "title": "Positions round-trip", "statement": "Converting a character-boundary byte offset to an editor position and back returns the same offset, conversion is monotone, and no input position or offset panics.", "quantifier": "every UTF-8 text, offset and position", "why_tests_cant": "Infinite input space with multi-byte and surrogate-pair characters.", "anchors": ["crates/ruby-analysis/src/indexer/source_document.rs::offset_to_line_character", "crates/ruby-analysis/src/indexer/source_document.rs::line_character_to_offset"]}
{"id": "C41", "title": "Positions follow the LSP definition", "statement": "The position reported for an offset is (number of preceding newlines, UTF-16 units since the last newline).", "quantifier": "every text and every character-boundary offset", "why_tests_cant": "Infinite input space.", "anchors": ["crates/ruby-analysis/src/indexer/source_document.rs::offset_to_line_character", "crates/ruby-analysis/src/engine/state.rs::SourceFile::byte_offset_to_line_character"]}
{"id": "C42", "title": "ERB masking preserves layout", "statement": "The masked Ruby source of a template has the same byte length and the same line breaks at the same offsets, is valid UTF-8, equals the template inside Ruby ranges, and contains nothing of the host text outside them.", "quantifier": "every template", "why_tests_cant": "Infinite input space including malformed templates.", "anchors": ["crates/ruby-analysis/src/indexer/erb.rs::mask_erb"]}
{"id": "C43", "title": "ERB tags are recognised as ERB does", "statement": "Exactly the code of the template's executable tags is visible as Ruby; comments and escaped tags are not.", "quantifier": "every template", "why_tests_cant": "Infinite input space.", "anchors": ["crates/ruby-analysis/src/indexer/erb.rs::mask_erb"]}
{"id": "C44", "title": "Export fingerprints encode facts unambiguously", "statement": "Two exported facts with the same pre-hash byte stream are equal (names, types, shapes, templates), so only hash collisions can hide an export change; and a change of one byte of a stream always changes the fingerprint.", "quantifier": "every pair of facts / byte streams", "why_tests_cant": "Infinite input space.", "anchors": ["crates/ruby-analysis/src/engine/state.rs::stable_fqn", "crates/ruby-analysis/src/engine/state.rs::stable_ruby_type", "crates/ruby-analysis/src/engine/state.rs::StableExportHasher"]}
{"id": "C45", "title": "Stale background results are rejected", "statement": "Facts collected for a source snapshot are committed only if no different content was registered for that file since; a rejected commit changes nothing.", "quantifier": "every interleaving of registrations and commits", "why_tests_cant": "Unbounded interleavings.", "anchors": ["crates/ruby-analysis/src/engine/state.rs::replace_facts_if_source_snapshot", "crates/ruby-analysis/src/engine/state.rs::register_file_borrowed_if_snapshot", "crates/ruby-analysis/src/engine/state.rs::register_indexed_file"]}
{"id": "C46", "title": "File identities are stable and unique", "statement": "A path always maps to the same file id, two paths never share an id, and id-to-path inverts path-to-id.", "quantifier": "every sequence of registrations", "why_tests_cant": "Unbounded histories.", "anchors": ["crates/ruby-analysis/src/engine/file_id_map.rs::FileIdMap"]}
{"id": "C47", "title": "JVM descriptors parse exactly", "statement": "parse_method_descriptor accepts exactly the descriptors of the JVM grammar and returns the described types; printing and re-parsing is the identity.", "quantifier": "every byte string", "why_tests_cant": "Infinite input space.", "anchors": ["crates/jvm-metadata/src/descriptor.rs::parse_method_descriptor", "crates/jvm-metadata/src/descriptor.rs::parse_field_descriptor"]}
{"id": "C48", "title": "Generated owner identities are collision free", "statement": "Two generated owners are equal iff extension, source and local identity are all equal; a generated owner never equals a source constant, and its components are recovered by the canonical parser.", "quantifier": "every triple of component strings", "why_tests_cant": "Infinite input space.", "anchors": ["crates/ruby-analysis/src/core/ruby_namespace.rs::GeneratedOwnerId"]}
{"id": "C49", "title": "Semantic tokens decode to the visited tokens", "statement": "Decoding the relative token stream sent to the editor yields the absolute position, length, type and modifiers of every token.", "quantifier": "every sequence of tokens the visitor emits", "why_tests_cant": "Unbounded token sequences in arbitrary visit order.", "anchors": ["crates/ruby-analysis/src/indexer/semantic_tokens.rs::TokenVisitor::add_token"]}
{"id": "C50", "title": "Implementor search terminates and is complete", "statement": "implementor_namespaces returns exactly the namespaces reachable by mixin and subclass edges, each once, for every ancestry graph.", "quantifier": "every finite graph", "why_tests_cant": "Infinite space of graphs incl. cyclic ones.", "anchors": ["crates/ruby-analysis/src/engine/hierarchy.rs::collect_all_implementors"]}
{"id": "C51", "title": "Governor admission order", "statement": "An admitted resource request had all it needs available, and was either first by (effective priority, arrival) among the waiting requests that could start, or (fairness turn) the oldest background request that could start.", "quantifier": "every reachable governor state and admission", "why_tests_cant": "Order depends on unbounded queue contents and interleavings.", "anchors": ["src/indexing_resources.rs::best_admissible_entry_index", "src/indexing_resources.rs::request_fits_available"]}
{"id": "C52", "title": "A finished status does not move", "statement": "After a run ended (ready, failed or cancelled) every status reading is the same until the next run begins, and a cancelled run's cancellation token is set.", "quantifier": "every history of status calls and every pair of reading times", "why_tests_cant": "Unbounded histories and clocks.", "anchors": ["src/indexing_status.rs::ProjectIndexingStatus::snapshot", "src/indexing_status.rs::ProjectIndexingStatus::transition", "src/indexing_status.rs::ProjectIndexingStatus::fail", "src/indexing_status.rs::ProjectIndexingStatus::cancel"]}
{"id": "C53", "title": "Navigation waiters are always answered, and truthfully", "statement": "A request waiting for a name is backed by outstanding work until its fate is decided; once decided it is woken and answers, and the answer (processed, stage complete, superseded, cancelled) is true of the history.", "quantifier": "every interleaving of requests, coordinator calls, notifications and waiter steps", "why_tests_cant": "A lost wakeup needs one particular interleaving; schedules are unbounded.", "anchors": ["src/navigation_demand.rs::NavigationDemandTicket::wait", "src/navigation_demand.rs::NavigationDemandController::outcome_for", "src/navigation_demand.rs::NavigationDemandController::notify_change"]}
{"id": "C54", "title": "Single-flight waiters are always answered", "statement": "Once the producer of a key has returned, failed or panicked, every caller waiting for that key can be answered by the remaining bookkeeping steps alone: no wake-up is lost and no lock cycle blocks it.", "quantifier": "every interleaving of callers, producers, notifications and evictions", "why_tests_cant": "A lost wakeup or a deadlock needs one particular interleaving.", "anchors": ["src/single_flight.rs::FlightState::wait", "src/single_flight.rs::FlightState::complete", "src/single_flight.rs::BlockingFlightState::wait"]}
{"id": "C55", "title": "One reservation per product across processes", "statement": "For each persistent product at most one thread of all processes owns a publication reservation; while anyone owns a reservation no eviction, invalidation or clearing runs; a reserved product is absent and stays absent until its owner publishes; the death of the owner's process lets the next waiter proceed.", "quantifier": "every interleaving of threads and processes, including clears that delete the lock files, process deaths and power failures", "why_tests_cant": "Depends on the order of lock, open and unlink calls of several processes.", "anchors": ["src/persistent_cache.rs::lookup_derived_product", "src/persistent_cache.rs::acquire_lock", "src/persistent_cache.rs::PersistentDerivedProductCache::clear"]}
{"id": "C56", "title": "A published product survives a power failure", "statement": "Once publish has returned success, a power failure leaves the product readable as long as nobody removes it.", "quantifier": "every history, every power failure", "why_tests_cant": "A power failure cannot be produced by a unit test.", "anchors": ["src/persistent_cache.rs::publish_inner", "src/persistent_cache.rs::sync_directory"]}
{"id": "C57", "title": "Compiled-Wasm payloads are bound to their key", "statement": "A stored compiled artifact is returned exactly for the source length, source hash and compiler identity it was stored under and rejected for every other key; accepted product identities name a path inside the cache and different products have different paths.", "quantifier": "every key, artifact and file content", "why_tests_cant": "Needs all keys and all byte strings.", "anchors": ["src/persistent_cache.rs::encode_compiled_wasm_payload", "src/persistent_cache.rs::decode_compiled_wasm_payload", "src/persistent_cache.rs::validate_cache_id", "src/persistent_cache.rs::product_path"]}
{"id": "C58", "title": "Narrowing is sound", "statement": "remove_nil(t) still describes every non-nil value of t and is no longer nilable; subtract(t,o) still describes every value of t that o does not describe and no longer lists o; neither describes a value t did not, unless it answers Unknown; make_nilable never loses a value.", "quantifier": "every type, every subtracted type and every value", "why_tests_cant": "Infinite input space; the claim is about sets of values.", "anchors": ["crates/ruby-analysis/src/core/ruby_type.rs::remove_nil", "crates/ruby-analysis/src/core/ruby_type.rs::subtract", "crates/ruby-analysis/src/core/ruby_type.rs::make_nilable"]}
{"id": "C59", "title": "Method index is exact", "statement": "After any sequence of adding method facts, removing a file and replacing a file's facts, every query of the method index (by qualified name, by owner and name filter, by owner and name, by file, all, names of an owner) returns exactly the facts currently in force that match, each once, in order of position; slots are reused; supplying a fact of another file is an error.", "quantifier": "all histories of operations, all facts, all queries", "why_tests_cant": "tests replay a few short histories; the four indexes must agree after every interleaving of edits", "anchors": ["crates/ruby-analysis/src/core/method_store.rs:MethodStore"]}
{"id": "C60", "title": "Effective method selection", "statement": "Asking for the method a call of a name on an owner would reach gives: nothing when no fact exists or one says the method was removed; the fact when all facts that count (those declaring it unavailable if there are any, all otherwise) agree; ambiguous otherwise. The answer depends only on the set of facts in force, not on their order or history.", "quantifier": "all histories, owners and names", "why_tests_cant": "unit tests try single combinations; precedence has to hold for every mix of facts and every order of arrival", "anchors": ["crates/ruby-analysis/src/core/method_store.rs:effective_fact_matching_owner_name"]}
{"id": "C61", "title": "Diagnostics index is exact", "statement": "After any sequence of adding a diagnostic, removing a file and replacing a file's diagnostics, the diagnostics reported for a file are exactly those in force, each once, ordered by start, end, severity, code and message, independent of arrival order and history; the files listed are exactly those with a diagnostic.", "quantifier": "all histories of operations and all diagnostics", "why_tests_cant": "tests check one or two replacements; order independence needs every permutation", "anchors": ["crates/ruby-analysis/src/core/diagnostic_store.rs:DiagnosticStore"]}
{"id": "C62", "title": "Candidate indexes are exact", "statement": "After any sequence of replacing files' reference candidates (or diagnostic candidates), the candidates reported for a file are those of its last replacement, by position and, at one position, by kind, ties in the order supplied; counts, the search by method name and the list of files agree with it.", "quantifier": "all histories of replacements and all candidates", "why_tests_cant": "candidates are split over three maps; only a proof covers every mix and history", "anchors": ["crates/ruby-analysis/src/core/reference_store.rs:ReferenceCandidateStore", "crates/ruby-analysis/src/core/diagnostic_candidate_store.rs:DiagnosticCandidateStore"]}
{"id": "C63", "title": "Type index is exact", "statement": "After any sequence of adding type facts, replacing a file's type facts, removing files and updating inferred types, the type index reports for a subject (variable, method return, parameter, constant, expression) exactly the facts in force about it, for a file exactly the facts in force in it, and over all facts and method returns each fact exactly once. With replacements only, a subject's facts come ordered by file, range and origin; single additions append and the next replacement concerning the subject restores that order. The index never panics as long as every replacement supplies facts of its own file.", "quantifier": "all histories of calls on the type index, all facts, subjects and files", "why_tests_cant": "ids are reused after removal, three indexes point to the same facts and two interning tables grow alongside; only an invariant over all histories shows none of them goes stale", "anchors": ["crates/ruby-analysis/src/core/type_store.rs: TypeStore::add, replace_file, remove_file, facts_for, facts_in_file, all_facts, method_return_types"]}
{"id": "C64", "title": "Type at a position is the latest assignment before it", "statement": "Asking for the type of a subject at an offset of a file considers the facts about the subject in that file that start at or before the offset, and of those only the ones that start last. If these agree on type and origin the answer is that type; if they differ the answer is ambiguous and lists each alternative once, in an order that depends on the alternatives only; if there are none the answer is unresolved. The lookup by a predicate on named subjects follows the same rule on types, and the latest known type of a subject is that of its last positioned fact that is not Unknown.", "quantifier": "all histories, subjects, files, offsets and predicates", "why_tests_cant": "the answer is computed by one pass over index buckets whose order depends on history; tests fix one order", "anchors": ["crates/ruby-analysis/src/core/type_store.rs: TypeStore::type_at, latest_non_unknown_type_with_range, named_type_in_file_before_matching"]}
{"id": "C65", "title": "Updating inferred types touches exactly the facts meant", "statement": "Updating method return types in a file changes the type of exactly the inferred return facts of these methods in that file; updating a subject at a range changes exactly the facts of that subject with that range; updating local variables by name changes exactly the local variable facts of that name with that range. Subject, range and origin of every fact, and the number and order of facts, stay the same; the call reports how many facts it concerned.", "quantifier": "all histories and all update calls", "why_tests_cant": "the update walks one index and writes through to facts shared with two others", "anchors": ["crates/ruby-analysis/src/core/type_store.rs: TypeStore::update_inferred_method_return_types_in_file, update_equation_target, update_local_assignment_equation_target"]}
{"id": "C66", "title": "Cached lookup chains are current", "statement": "A method lookup answered from the engine's cached top-level and universal fallback chains is the one computed from the present ancestry graph.", "quantifier": "every history of replacements, resolve calls and lookups", "why_tests_cant": "staleness needs a lookup between two particular calls", "anchors": ["crates/ruby-analysis/src/engine/state.rs replace_facts_deferred, resolve, resolve_files", "crates/ruby-analysis/src/engine/resolution.rs append_top_level_instance_fallback, compute_universal_object_fallback"]}
{"id": "C67", "title": "Includers of a module are exact", "statement": "The classes a module's self may be, when a method is called in the module, are exactly the classes that include or prepend it directly or through modules, each once, in the order of their names, for every graph, cyclic or not.", "quantifier": "every finite ancestry graph and module", "why_tests_cant": "reachability over arbitrary graphs", "anchors": ["crates/ruby-analysis/src/engine/resolution.rs module_includers"]}
{"id": "C68", "title": "Linter offenses land where the linter reported them", "statement": "Every line and byte column a linter reports inside the document is converted to the editor position of that place; a place outside the document or inside a character is refused.", "quantifier": "every document and every reported line and column", "why_tests_cant": "Infinite input space, with multi-byte characters and CRLF line ends.", "anchors": ["src/linter.rs rubocop_position"]}
{"id": "C69", "title": "Formatting replaces the whole document", "statement": "The range of the formatting edit runs from the first position to the protocol's end position of the document, so applying it leaves exactly the formatted text.", "quantifier": "every document", "why_tests_cant": "Infinite input space.", "anchors": ["src/capabilities/formatting.rs full_document_range"]}
{"id": "C70", "title": "A warning about arguments means Ruby refuses the call", "statement": "When the server reports a wrong number of arguments, an unknown keyword or missing keywords for a call to a method, Ruby raises ArgumentError for that call whatever the splatted values are; the numbers and names in the message are the right ones; and a call whose arguments are all written out and which Ruby would refuse is reported. Checking a call never crashes the server.", "quantifier": "all parameter lists, all argument lists with positional, splat, keyword, double-splat, block and forwarded arguments, and everything a splat may evaluate to", "why_tests_cant": "The result depends on the combination of seven kinds of parameters with five kinds of arguments; tests sample a few combinations and no test can range over what a splat evaluates to.", "anchors": ["crates/ruby-analysis/src/engine/diagnostics.rs: push_signature_diagnostics", "crates/ruby-analysis/src/engine/diagnostic_helpers.rs: MethodArity::from_params, arity_mismatch", "crates/ruby-analysis/src/indexer/fact_collector/call_node/mod.rs: method_signature_candidate_from_arguments", "crates/ruby-analysis/src/indexer/fact_collector/def_node.rs: extract_method_params"]}
{"id": "C71", "title": "Did-you-mean offers the nearest name", "statement": "The distance between two names is the least number of characters inserted, removed or replaced to turn one into the other. For an unknown keyword the first of the nearest declared keywords within the limit is offered, for an unknown method the nearest method of the owner, alphabetically first among equals, independently of the order in which methods were indexed; nothing is offered only if no name is near enough.", "quantifier": "all names, all lists of declared keywords and methods", "why_tests_cant": "Minimality of an edit distance is a statement about all edit scripts; tests compare a few pairs.", "anchors": ["crates/ruby-analysis/src/engine/diagnostic_helpers.rs: levenshtein, closest_keyword, suggestion_threshold", "crates/ruby-analysis/src/engine/diagnostics.rs: find_method_suggestion", "crates/ruby-analysis/src/engine/state.rs: method_names_for_owner"]}
{"id": "C72", "title": "Renaming a local variable renames that variable and nothing else", "statement": "The edits offered for a rename with the cursor on a local variable are exactly the places where that variable is written, each once, in order of the text, and there are none when the cursor is on no variable. After renaming to a name the program does not use, every place is an occurrence of the same variable as before, and hash keys and keyword names are unchanged.", "quantifier": "all programs built from nested scopes (def, class, module, blocks, lambdas), assignments, reads, bare calls and every kind of parameter, all cursor positions, all new names", "why_tests_cant": "Scoping is a property of all nestings of scopes; tests show a few nestings.", "anchors": ["crates/ruby-analysis/src/indexer/rename.rs: find_rename_targets, RenameVisitor", "src/capabilities/rename.rs: handle_rename"]}
{"id": "C73", "title": "Selection ranges are the syntax around the cursor, from the inside out", "statement": "A selection range request answers every position: with ranges that are locations of syntax nodes or names around it, the smallest first, each properly inside the next, such that no other location around the position could be added; or with the empty range there when nothing is around it. Converted to the editor's positions they still contain the place and one another, and the request never crashes the server.", "quantifier": "all syntax trees with any locations, all documents, all lists of positions including ones outside the document", "why_tests_cant": "Nesting and maximality are properties of all trees and offsets; the code's own test has one.", "anchors": ["crates/ruby-analysis/src/indexer/selection_ranges.rs: selection_range_chains", "src/capabilities/selection_ranges.rs: handle_selection_ranges"]}
{"id": "C74", "title": "Every construct over several lines can be folded", "statement": "The folding ranges of a document are exactly its classes, modules, methods, conditionals, loops, cases, begin blocks, blocks and literals that take more than one line, in the order of the text, each from its first line to its last line, which are lines of the document.", "quantifier": "all documents, all syntax trees", "why_tests_cant": "Quantifies over all nestings of constructs.", "anchors": ["src/capabilities/folding_range.rs: FoldingRangeVisitor, handle_folding_range"]}
{"id": "C75", "title": "Local variables lead to their own definition and uses", "statement": "Go to definition with the cursor on a local variable leads to the place where that variable is first assigned or declared as a parameter, and find references lists exactly the places where that variable, and no other of the same name, is written. Whatever the program, only places where that name is written are ever offered, and a definition only if it starts before the cursor.", "quantifier": "all programs built from nested classes, modules, definitions, singleton classes, blocks and lambdas with any variables and parameters, all cursor positions, all histories of requests", "why_tests_cant": "Scoping, shadowing and capture interact over arbitrary nestings; a test fixes one program.", "anchors": ["crates/ruby-analysis/src/indexer/variable_scopes.rs: VariableScopes", "crates/ruby-analysis/src/indexer/ruby_document.rs: local_variable_definition_range_before, local_variable_reference_ranges_at", "src/query/definition.rs: find_local_variable_definitions_at_position", "src/query/references.rs: find_local_variable_references"]}
{"id": "C76", "title": "Class files are read exactly as the JVM specification lays them out", "statement": "A sequence of bytes is accepted as a class file if and only if it follows the class file format and stays within the configured limits (size, constants, members, attributes over the whole file, attribute size, annotations); then the class, its supertypes, fields, methods, parameter names, annotations, inner classes, record components, module and first lines reported are those the file states. Strings are accepted exactly when they are modified UTF-8, every method has as many parameters as its descriptor, and the kind reported is that of the flags and attributes. Nesting of annotation values stays within the configured depth.", "quantifier": "all byte sequences and all limits", "why_tests_cant": "Byte sequences are unbounded and hostile; a test fixes one file, and no test shows that nothing else is accepted or that every well-formed file is.", "anchors": ["crates/jvm-metadata/src/classfile.rs: parse_class, ClassFile::kind, parse_constant_pool, parse_members, parse_annotations, parse_code_metadata, parse_record_components, parse_module_name, decode_modified_utf8"]}
{"id": "C77", "title": "Code marked unreachable never runs", "statement": "A statement the server marks as unreachable code is started by no execution of the program, whatever its conditions, the methods it calls and the exceptions they raise do. Conversely every statement after a return, break, next, redo, retry, a call that never returns, or a branch all of whose arms end so is marked, in every statement list of the file; and in a structured program in which nothing is marked every statement can run.", "quantifier": "all Ruby programs of the modelled syntax, all their executions including endless ones, and all behaviours of the methods they call", "why_tests_cant": "Programs nest without bound and have infinitely many executions; a test fixes one program and looks at the marks, not at what runs.", "anchors": ["crates/ruby-analysis/src/inference/control_flow.rs: analyze, analyze_begin, is_terminating_call, is_diverging_loop, BreakFinder", "src/capabilities/diagnostics.rs: extract_unreachable_diagnostics, UnreachableVisitor, extract_syntax_diagnostics"]}
{"id": "C78", "title": "Method calls lead to the method Ruby runs", "statement": "For a call of a method, written without receiver, on self, on another receiver or through send, the definitions the server goes to are exactly the method body Ruby would run: the first along the receiver's ancestors, provided its visibility (set by private, protected and public, with or without names, in the class itself or in a subclass) allows the call there. A call Ruby refuses leads to no definition; a call of a method that does not exist leads to method_missing where a class defines one.", "quantifier": "all programs of class bodies with visibility statements, definitions, class methods and class << self, over any files, all ancestor relations, receivers, callers and names", "why_tests_cant": "Visibility depends on the order of statements over all files and on every ancestor; tests try a handful of two-class programs.", "anchors": ["crates/ruby-analysis/src/engine/resolution.rs: resolve_method_callees_inner, method_facts_in_chain, method_visibility_override_for_chain, private_method_in_chain, protected_method_visible_from", "crates/ruby-analysis/src/indexer/fact_collector/mod.rs: direct_set_method_visibility", "crates/ruby-analysis/src/indexer/fact_collector/call_node/mod.rs: push_direct_visibility_modifier, method_reference_access", "crates/ruby-analysis/src/indexer/fact_collector/def_node.rs: process_def_node_entry"]}
{"id": "C79", "title": "super leads to the next method", "statement": "super in a method leads to the method body Ruby runs next: the first one beyond the method's class or module among the ancestors of the receiver, whatever its visibility; and nowhere if there is none.", "quantifier": "all programs as in C78, all ancestor relations, receivers and methods", "why_tests_cant": "The next method depends on the whole ancestry of the receiver, which tests fix.", "anchors": ["crates/ruby-analysis/src/engine/resolution.rs: resolve_super_method_callee, method_callee_after_owner", "crates/ruby-analysis/src/indexer/fact_collector/super_node.rs: push_super_reference_candidate"]}
{"id": "C80", "title": "Types shown for local variables cover the values read", "statement": "For every method body, every declaration of its parameters and everything the index says about methods, if what the index says is true of the running program then every value that any run of the body reads from a local variable belongs to the type the server shows for that variable at that place: through assignments, branches and the guards that narrow them, case, and/or, begin/rescue/else/ensure, loops and blocks, and whatever exceptions are raised.", "quantifier": "every program over the modelled statements, every declared parameter type, every truthful index, every starting store and every run of the program, finished or not, with exceptions raised at any call", "why_tests_cant": "the type at a read is the join of all paths reaching it and of repeated passes over loops; a test looks at one program and never at all the runs a type has to cover, in particular not at those leaving a protected body or a loop early", "anchors": ["crates/ruby-analysis/src/inference/type_tracker/mod.rs TypeTracker::track_node/infer_expression", "crates/ruby-analysis/src/inference/type_tracker/narrow.rs narrow", "crates/ruby-analysis/src/inference/control_flow.rs"]}
{"id": "C81", "title": "The inferred return type covers what the method returns", "statement": "For every method body, declared parameter types and truthful index, the value handed back by any run that ends, by a return statement at any depth or by reaching the end of the body, belongs to the return type inferred for the method.", "quantifier": "every program over the modelled statements and every run that ends normally or by return", "why_tests_cant": "returns are collected from places the code chooses to look at, while the value comes from any path of any run", "anchors": ["crates/ruby-analysis/src/inference/type_tracker/mod.rs track_method", "crates/ruby-analysis/src/inference/control_flow.rs diverges"]}
{"id": "C82", "title": "Open documents follow the editor", "statement": "Whatever notifications the editor sends within the protocol, and however their handling interleaves with analyses on the pool, watched-file work and failing analyses: once nothing is left to do, the server holds exactly the documents the editor shows, with their versions and texts, and answers about them from the facts of those texts.", "quantifier": "every sequence of didOpen, didChange, didSave, didClose and watched-file notifications, every change of the disk, every schedule of handlers and pool threads, every set of failing analyses", "why_tests_cant": "the outcome depends on how handlers, pool closures and refresh passes interleave and on what earlier handlers left behind; a test drives one schedule", "anchors": ["src/capabilities/indexing.rs handle_did_open/handle_did_change/handle_did_save/handle_did_close/handle_watched_files_changed", "src/indexer/file_processor.rs process_file_with_resolution_forced", "src/server.rs document_semantic_lock"]}
{"id": "C83", "title": "Closed files follow the disk", "statement": "Once nothing is left to do, the index holds for every project file that is not open the facts of its content on disk.", "quantifier": "every history of notifications and disk changes and every schedule", "why_tests_cant": "whether a change is missed depends on what was open or being read when it was announced", "anchors": ["src/capabilities/indexing.rs handle_watched_files_changed/handle_did_close/clear_file_facts_if_kind"]}
{"id": "C84", "title": "Watched-file changes are debounced without loss", "statement": "Every announced change of a file is handed on after it was announced, once, as the latest announced change of that file, in one batch by the handler of the newest announcement; when no handler sleeps any more nothing is owed.", "quantifier": "every sequence of watched-file notifications and cancellations and every order in which the handlers' sleeps end", "why_tests_cant": "sleeps may end in any order and batches merge across notifications", "anchors": ["src/server.rs WatchedFileChangeBatch", "src/handlers/notification.rs handle_did_change_watched_files"]}
{"id": "C85", "title": "Diagnostics arrive in order and the latest ones stay", "statement": "The editor receives, for every document, part of the diagnostics published for it, in the order of publication; when no sender is left it shows the ones published last; a sender is alive whenever something waits, never more than one, and sending alone empties the queue.", "quantifier": "every sequence of publications from any number of tasks, interleaved in any way with the sender", "why_tests_cant": "a lost wake-up or a second sender shows only in particular interleavings of the queue lock and the sends", "anchors": ["src/server.rs DiagnosticPublicationState/publish_diagnostics/drain_diagnostic_publishes"]}
{"id": "C86", "title": "Calls on nil are reported", "statement": "When a document calls a method on a local whose inferred type is nil, the diagnostics published for the document say so.", "quantifier": "every document and every sequence of notifications", "why_tests_cant": "the check depends on state the document has at the moment diagnostics are generated, which no test of the check itself exercises", "anchors": ["src/capabilities/diagnostics.rs generate_diagnostics/extract_nil_call_diagnostics", "src/indexer/file_processor.rs process_file_with_resolution_forced"]}
{"id": "C87", "title": "Signature help highlights the parameter that takes the argument", "statement": "While a call is typed, the parameter highlighted by signature help is the parameter of the method that receives the argument the cursor is in: by position for a positional argument, by name for a keyword, the rest parameters for what is left over.", "quantifier": "every parameter list, every call text and every cursor position in it", "why_tests_cant": "The binding of arguments to parameters depends on the whole parameter list and on the number of arguments; tests try a few signatures, mostly without required parameters at the end.", "anchors": ["src/query/signature_help.rs::active_parameter_for_params", "src/query/signature_help.rs::active_positional_parameter", "crates/ruby-analysis/src/indexer/analyzer.rs::active_keyword_for_call"]}
{"id": "C88", "title": "Signature help is about the call and argument the cursor is in", "statement": "The call shown by signature help is the innermost one whose arguments surround the cursor, and the argument taken as current is the one between whose commas the cursor stands.", "quantifier": "every parse tree, every source text and every cursor position", "why_tests_cant": "Nesting of calls, block arguments, blanks, comments and unfinished arguments combine without bound.", "anchors": ["crates/ruby-analysis/src/indexer/analyzer.rs::SignatureCallSiteFinder", "crates/ruby-analysis/src/indexer/analyzer.rs::active_parameter_for_call"]}
{"id": "C89", "title": "Workspace symbol search finds what answers the query", "statement": "For a query of at least one character, the answer of the workspace symbol request holds only symbols of the user's own code (no gems, no generated owners, no local variables) whose own name contains the query's letters in order, whatever the case, or whose capitals begin with the query's capitals; every such symbol with a location is in the answer unless a hundred others of its workspace folder answer at least as well, the name itself ranking above other cases of it, these above beginnings, these above the rest. An empty query lists the classes, modules and constants of the outermost level, the first fifty of each folder. The answer goes by name, file and position, each entry once.", "quantifier": "every list of workspace folders, every index content, every query and every lowercase mapping", "why_tests_cant": "Which symbols survive the cut depends on the scores of all others; tests search indexes of a handful of names.", "anchors": ["crates/ruby-analysis/src/engine/workspace_symbols.rs: top_level_symbols, search_workspace_symbols, SymbolMatcher", "src/query/workspace_symbols.rs", "src/capabilities/workspace_symbols.rs: handle_workspace_symbols"]}
{"id": "C90", "title": "The text of a hierarchy item names its symbol", "statement": "The text that a call or type hierarchy item carries back to the server names the very class, module or method the item was made for: reading the text gives the symbol back, the text of a symbol read from a text is that text, and two methods never share a text.", "quantifier": "every qualified name whose parts are Ruby identifiers, under every table of identifier characters in which ':' and '#' are in no identifier", "why_tests_cant": "The printed form and the reader are two separate grammars; tests print and read a few names.", "anchors": ["crates/ruby-analysis/src/core/fully_qualified_name.rs: Display", "crates/ruby-analysis/src/engine/hierarchy.rs: parse_method_fqn, parse_namespace_fqn", "crates/ruby-analysis/src/core/ruby_namespace.rs: RubyConstant::new", "crates/ruby-analysis/src/core/ruby_method.rs: RubyMethod::new"]}
{"id": "C91", "title": "Call hierarchy lists the callers and the callees", "statement": "The incoming calls of a method are exactly the methods with a definition that contain a recorded call of it, each once, in the order of their names, each with the places of its calls in the order of the text; the outgoing calls are exactly the methods with a definition that it calls, likewise. A method is a caller of another exactly when that one is its callee, with the same places. A method the index does not know has neither.", "quantifier": "every engine content and every history of its reference index (files indexed, reindexed, removed)", "why_tests_cant": "The answer joins three indexes after any history of file updates; tests index one file once.", "anchors": ["crates/ruby-analysis/src/engine/hierarchy.rs: incoming_calls, outgoing_calls", "src/query/call_hierarchy.rs", "crates/ruby-analysis/src/core/reference_index.rs"]}
{"id": "C92", "title": "Type hierarchy shows the direct relations of the source", "statement": "The supertypes of a class or module are its superclass, its prepended, included and extended modules as its definitions state them, and the names it mentions that no file defines; its subtypes are exactly the classes and modules whose definitions name it so. A type is listed among the supertypes of another exactly when that one is listed among its subtypes. A name without definition has no hierarchy.", "quantifier": "every content of the symbol index and every history of the type graph", "why_tests_cant": "The graph is edited file by file, in any order, and read in both directions; tests build it once.", "anchors": ["crates/ruby-analysis/src/engine/hierarchy.rs: supertypes, subtypes", "src/query/type_hierarchy.rs", "crates/ruby-analysis/src/core/type_graph.rs"]}
{"id": "C93", "title": "The document outline shows what the file defines", "statement": "The outline of a document lists its classes, modules, methods, singleton methods, aliases and constants, each once, with name, kind and range, nested as the text nests them and in the order of the text; every instance method is shown with the visibility Ruby gives it.", "quantifier": "every syntax tree of a document", "why_tests_cant": "The answer is assembled by a visitor that keeps stacks of scopes and visibilities and then rebuilt into a tree from parent indexes; tests look at a few small files.", "anchors": ["crates/ruby-analysis/src/indexer/document_symbols.rs", "src/capabilities/document_symbols.rs", "crates/ruby-analysis/src/indexer/scope_tracker.rs"]}
{"id": "C94", "title": "The projects of a folder are its outermost Gemfiles", "statement": "Opening a folder registers as projects exactly its outermost directories with a Gemfile (links, vendor, tmp and the like left out), each once, in order, none inside another; a folder without Gemfile is one project. With configured roots the projects are exactly the directories these name; a root that names no directory of the folder, or lies in another, is refused. Every open folder has a project and every file of it belongs to one.", "quantifier": "every directory tree, every list of configured roots and every file system with links", "why_tests_cant": "It quantifies over all directory trees; tests build a handful. The check for overlapping roots looks only at neighbours in a sorted list.", "anchors": ["src/indexer/project_roots.rs: discover_project_roots, discover_project_roots_with_explicit"]}
{"id": "C95", "title": "Documents follow their folders and projects", "statement": "After any sequence of opening and closing folders, a project is registered exactly while an open folder holds it, keeps its index all that time, and shares it with no other project. A document belongs to the innermost project around it. When folders change, every open document whose project changes is opened anew. A document outside of all projects is shown with the project it was last reached from, else with the only project that has indexed it.", "quantifier": "every history of opening and closing folders, navigating, closing documents, rebuilding projects and requests", "why_tests_cant": "The tables are the product of a history; overlapping folders and files reached from several projects are histories no test enumerates.", "anchors": ["src/server.rs: workspace_for_uri, analysis_workspace_for_uri, add_workspace_folder, remove_workspace_folder, retain_external_document_project", "src/handlers/notification.rs: handle_did_change_workspace_folders"]}
{"id": "C96", "title": "require leads to the file Ruby loads, and only those that lead nowhere are reported", "statement": "For every disk, settings and list of gems, a require of a feature leads to the first Ruby file of that name on the load path (configured directories, lib, the project, the gems) and a require_relative to the one next to the file it stands in. Reported as unresolved are exactly the calls with one literal string, on no receiver or on Kernel, that lead nowhere, at what stands between their quotes; the call under the cursor is one whose literal contains it.", "quantifier": "every disk, set of files the engine knows, argument, settings, list of gem directories, syntax tree and cursor", "why_tests_cant": "unit tests lay out a directory with one or two files each; what shadows what depends on every combination of directories and names", "anchors": ["src/indexer/require_paths.rs: resolve_require_path, existing_require_candidate, with_rb_extension, validated_project_relative_dir, find_require_string_at_offset, unresolved_require_diagnostics, content_byte_range"]}
{"id": "C97", "title": "Types written in YARD comments mean what they say", "statement": "Every type written in a YARD tag - nil, void, true, false, Boolean, constant paths, arrays with brackets, hashes with brackets or braces, nested to any depth - is read as the type it denotes; the list between the square brackets is taken apart exactly at the commas between its types; and the type of a tag is the union of its types without repetitions, unknown as soon as one of them is unknown.", "quantifier": "every type expression, every list of them and every text between the square brackets of a tag", "why_tests_cant": "unit tests convert a dozen fixed strings; the splitting depends on the nesting of brackets, braces and arrows in all combinations", "anchors": ["crates/ruby-analysis/src/indexer/yard/converter.rs: YardTypeConverter::convert, convert_multiple, split_hash_types", "crates/ruby-analysis/src/indexer/yard/parser.rs: parse_type_list"]}
{"id": "C98", "title": "The comment above a method is its documentation, and its tags say what they say", "statement": "For every source text and every method in it, the lines read as its documentation are exactly the comment lines among the maximal run of comment and blank lines that ends just before it, in order, each with its own line number, the text after its hashes and where that text stands. The description is what precedes the first tag; every tag counts, in order, whatever the others say; and a well-formed parameter, result, block parameter, block result, exception, deprecation or availability tag is read as the name, types, reason and place written. The claim that this never stops the analysis is false: a comment that marks a method both unavailable and absent panics, and exactly such a comment. Also false: that code before the method on its line does not matter, that a blank line cuts a comment off, that a tag named inside another tag's text is text, that columns are those of the editor.", "quantifier": "all source texts, lines, comments, tags, names, types and tables of letters", "why_tests_cant": "Texts are unbounded and the patterns are searched anywhere in a line; tests use a few well-formed comments", "anchors": ["crates/ruby-analysis/src/indexer/yard/parser.rs::{extract_from_source_at_line,collect_preceding_comments,parse_lines,parse_tag}", "crates/ruby-analysis/src/indexer/fact_collector/def_node.rs::process_def_node_entry"]}
{"id": "C99", "title": "With the cursor on a type in a comment, that type is found", "statement": "For every comment line, every list of types in its first brackets and every place on one of them, the name found is the one that type begins with; outside comments and where there are no brackets nothing is found. The claim is false for the parameter of a type (the outer type is found), for a type after one with braces, and in lines with letters outside ASCII, where bytes are compared with the editor's units.", "quantifier": "all lines, lists of written types without braces, and cursor positions on them", "why_tests_cant": "Lines, types and positions are unbounded; tests look at a few positions in ASCII lines", "anchors": ["crates/ruby-analysis/src/indexer/yard/parser.rs::{find_type_at_position,split_types_with_positions,extract_base_type}"]}
{"id": "C100", "title": "The version of Ruby is the one the project names", "statement": "The Ruby version the server works with is the one the project names. A version is read from a text exactly when it starts with two numbers up to 255 with a dot between them; a bare or ruby- prefixed name means MRI, a jruby- or truffleruby- prefixed one means that engine at the Ruby it is compatible with. The name in .ruby-version wins whatever else there is, then the first quoted name after ruby in the Gemfile, then rbenv, then rvm, and last what ruby --version prints, which is read for all three engines.", "quantifier": "all file contents, all command outputs, all combinations of sources", "why_tests_cant": "Tests try a few names and one source at a time; the reading of every name and the precedence among sources need a statement over all texts.", "anchors": ["src/indexer/version/ruby_version.rs: RubyVersion::from_full_version, parse_from_version_output", "src/indexer/version/version_detector.rs: RubyVersionDetector::detect_version", "crates/jruby-support/src/version.rs"]}
{"id": "C101", "title": "The report of the check command is complete, ordered and free of repetition", "statement": "The check command reports exactly the syntax diagnostics of the project files that were chosen and the diagnostics the engine holds for them, each once, under the path relative to the project root, with lines and columns counted from one. The list is ordered by file, start, end, severity, code and message, so it does not depend on the order in which projects, files and diagnostics come. The totals count what is listed, and the exit code is one exactly when an error or a warning is listed. A single file that was not indexed exactly once is an error rather than an empty report. Its root is the nearest directory above it with a Gemfile, else its own directory. A command line is accepted exactly when it is made of format options and at most one path; the last format counts.", "quantifier": "all sets of workspaces, files and diagnostics, in all orders; all command lines; all directory trees", "why_tests_cant": "Tests check one report of a few files; independence of order and the characterisation of accepted command lines range over all inputs.", "anchors": ["src/check.rs: CheckSession::check_path, normalize_diagnostics, summarize, nearest_project_root, report_path, source_is_selected", "src/main.rs: run_check_command"]}
{"id": "C102", "title": "The text in front of the cursor decides what completion offers", "statement": "For every line, cursor and way of asking, a completion request is answered: right after '::' the constants of the name in front of it are offered, after a dot (or in the name after it) the methods of the receiver, otherwise everything that starts with the word ending at the cursor.", "quantifier": "every line of text, every cursor in it as an editor reports it (UTF-16 units), every trigger character, and every finding of the syntax tree at the cursor", "why_tests_cant": "Tests use short ASCII lines with the cursor at the end; the columns of an editor and the bytes of a string agree only there, and a panic in a handler is not reported as a failed request.", "anchors": ["src/capabilities/completion/mod.rs: find_completion_at_position", "src/capabilities/completion/snippets.rs: RubySnippets::determine_context_with_position"]}
{"id": "C103", "title": "Completion offers the constants that were asked for", "statement": "For every set of known declarations and every text in front of the cursor (a word, a word after a path, a word after two leading colons): every constant offered is a declared class, module or constant whose last name starts with the word, letter case aside, in the namespace asked for; the labels are in order, without doubles and at most fifty; and every such constant is offered, or fifty earlier candidates were found.", "quantifier": "every list of declarations, every way of folding letter case, every requested text", "why_tests_cant": "Tests look for one label in a short list; that nothing else is offered, that nothing is dropped, and what the limit drops when many namespaces share a name is a statement over all workspaces.", "anchors": ["crates/ruby-analysis/src/engine/lookup.rs: constant_matches, constant_matches_request", "crates/ruby-analysis/src/engine/lookup_types.rs: ConstantLookupRequest::new", "src/query/completion.rs: find_constant_completions, dedupe_completion_items"]}
{"id": "C104", "title": "Completion after a dot offers the methods the receiver has", "statement": "For every receiver type and every typed beginning: a method is offered exactly if its name starts that way and the code of the project (the nearest declaration in lookup order that is available) or the core signatures give it to the receiver, shown with the parameters and return type of the method that would run; no name twice; for a receiver of several types exactly the methods all of them have with the same parameters, the return type shown taking in that of each.", "quantifier": "every lookup order, every list of declarations with any availability marks, every table of core signatures, every receiver type including unions, every typed beginning", "why_tests_cant": "Tests check that one expected label is in the list for one or two small classes; exactness, shadowing across any chain of ancestors and unions of any size are statements over all programs.", "anchors": ["crates/ruby-analysis/src/engine/lookup.rs: method_facts_matching, method_matches_for_type, receiver_type_to_namespaces", "crates/ruby-analysis/src/inference/completion.rs: rbs_method_matches_for_type, class_names_for_type", "src/query/completion.rs: find_method_completions", "src/capabilities/completion/mod.rs: find_completion_at_position"]}
{"id": "C105", "title": "The receiver in front of a dot is read as it is written", "statement": "For every file and cursor after a dot, when the syntax tree has no receiver there: if a name stands in front of the dot, the analysis is asked about exactly the bytes of that name and its answer is used; constants, numbers, symbols, strings and variables holding a new object get the type they are written with.", "quantifier": "every text before and after the cursor, every table of letters, digits and blanks, every answer of the analysis", "why_tests_cant": "Tests try a dozen short receivers; the reading depends on every character before the dot on the line, and for variables on every line of the file.", "anchors": ["crates/ruby-analysis/src/inference/completion.rs: receiver_type_from_context, infer_literal_type_from_expression, infer_literal_type, infer_constructor_assignment_type, infer_array_element_types"]}
{"id": "C106", "title": "Reading a hash with known keys never loses a value", "statement": "For every type whose alternatives are hashes with known keys, every hash it describes and every key: what h[k], fetch, dig, keys, values and key? return is described by the type the analysis gives the call; a literal key gets nil only where some alternative may lack it.", "quantifier": "every type built through the public constructors, every hash it describes, every key and chain of keys, every meaning of the named classes in which nil, true and false are the only instances of theirs", "why_tests_cant": "Tests read three or four fixed shapes; the answer combines optional fields, rest types, unions of shapes and nesting to any depth.", "anchors": ["crates/ruby-analysis/src/inference/type/shape.rs: indexed_read, fetch, dig, keys, values, key_presence, generic_hash_projection"]}
{"id": "C107", "title": "The type of a literal describes its value, and a declared return type is held against it", "statement": "For every literal expression, however nested: the type the analysis gives it describes every value it can evaluate to, where the last write to a key of a hash literal stays and what a splat brings in is taken over; hash literals with known keys are typed key by key, exactly; the analysis never panics. When a method's last statement has a known type and no declared-return-type-mismatch warning is given, the method's value is described by the declared type; when one is given, the value is not of the declared type.", "quantifier": "every literal built from numbers, strings, symbols, arrays, hashes, splats and indexes to any depth, every value it may evaluate to, every declared type", "why_tests_cant": "Tests fix a dozen literals; literals nest without bound, keys repeat, splats overwrite, and the meaning of the named classes is open.", "anchors": ["crates/ruby-analysis/src/inference/type/literal.rs: analyze_literal, analyze_array_access, infer_array_literal_type_fallible, infer_hash_literal_type_fallible, literal_shape_construction_unknown_reason", "crates/ruby-analysis/src/indexer/fact_collector/def_node.rs: validate_declared_return_type, infer_return_values_for_declared_type_check, infer_return_value_from_node"]}
{"id": "C108", "title": "Completing the keys of a hash", "statement": "With the cursor at the end of the symbol or string in x[:na] or x[\"na\"], the keys offered are exactly those that every alternative of the type known for x lists, of the kind written and beginning as typed, sorted and each once, and nothing else is offered; a key every possible value has is always among them, and none is offered that no value can have. The request is about the shortest call that asks at the cursor. Accepting a key replaces exactly the text of the literal and leaves a literal that reads as the key.", "quantifier": "every syntax tree, cursor, receiver type, meaning of the class names, set of key texts and answer of the analysis", "why_tests_cant": "Tests try a few hashes and cursors; which keys are common to all alternatives, and what every described value has, ranges over all types and values.", "anchors": ["crates/ruby-analysis/src/indexer/analyzer.rs: ShapeKeyCompletionTargetFinder, get_completion_context", "crates/ruby-analysis/src/inference/completion.rs: shape_key_completions_for_target, common_shape_keys", "src/capabilities/completion/mod.rs: find_completion_at_position"]}
{"id": "C109", "title": "A warning about a splat means Ruby refuses the call", "statement": "When an argument *e or **e is reported, Ruby raises a TypeError for whatever e evaluates to; every literal and every local variable of a core class that Ruby refuses after two stars is reported, at the splat; nothing is said about other expressions, types that are not classes, hashes after two stars, arrays after one, or nil.", "quantifier": "every list of arguments, every type the analysis has for a variable, every value and every version of Ruby", "why_tests_cant": "Tests call a handful of literals; whether Ruby refuses depends on the value, its class and its conversions, and the warning must be right for all of them.", "anchors": ["crates/ruby-analysis/src/indexer/fact_collector/bad_splat.rs: check, is_definitely_non_array, is_definitely_non_hash, is_type_definitely_non_array, is_type_definitely_non_hash"]}
{"id": "C110", "title": "The table of contents of a JAR is read one way only", "statement": "Before a JAR or JMOD is read its table of contents is checked. The check succeeds, with the number of entries, exactly for the files that consist of something, a table of that many entries with pairwise different names, and an end record with a comment up to the end of the file, where the table starts at the offset the end record gives and fills the space up to the end record, all on one disk, not more entries than allowed and fewer than 65535; if several places look like an end record the last one counts. Two readings of one file cannot differ in the entries. A JAR that a script is put in front of, which Java runs, is refused.", "quantifier": "every sequence of bytes and every limit on the entries", "why_tests_cant": "Tests build a few small archives with a library; the claim is about every file, hostile ones included, and in both directions: nothing else is accepted, nothing well laid out is refused.", "anchors": ["crates/jvm-metadata/src/archive.rs: validate_central_directory_names", "crates/jvm-metadata/src/archive.rs: read_u16_le", "crates/jvm-metadata/src/archive.rs: read_u32_le"]}
{"id": "C111", "title": "The right classes are read from a JAR or JMOD", "statement": "Reading an archive for a Java release succeeds exactly if the archive is within the limits, of the right kind, has a sound table of contents the ZIP reader agrees with, only names that stay inside it and occur once, entries as large as they claim, well named directories for releases, and every class that is used where its name says. Then for every class file that an entry offers there is exactly one class: from the directory of the highest release not above the given one if the manifest says there are such directories, from the plain place otherwise; the classes come in the order of their names, and nothing makes the reader panic. Directories for releases before 9, attributes outside the main section of the manifest and misplaced classes are to be ignored as Java ignores them.", "quantifier": "every archive and what the ZIP reader, the class parser and UTF-8 decoding make of it, both kinds, every release and all limits", "why_tests_cant": "Tests read a handful of archives; the choice among releases, the order, the limits and the refusal of hostile names must hold for every archive.", "anchors": ["crates/jvm-metadata/src/archive.rs: parse_archive", "crates/jvm-metadata/src/archive.rs: class_candidate", "crates/jvm-metadata/src/archive.rs: validate_entry_name", "crates/jvm-metadata/src/archive.rs: is_metadata_entry", "crates/jvm-metadata/src/archive.rs: manifest_is_multi_release"]}
{"id": "C112", "title": "The hint return stands where the value of a method comes from", "statement": "In every file, for every method and every way its body can run to an end, the expression whose value the method then delivers carries the hint return; no other place carries it when the method has no dead code; the hints come in the order of the text, no place twice; and the labels after the ends name exactly the classes, modules and methods that end there. Only places in the range asked for are shown.", "quantifier": "every syntax tree with methods nested to any depth, every run of a body through branches, rescue, else and ensure clauses, every range", "why_tests_cant": "Bodies nest to any depth and every branch is a way to end; a test shows the hints of a few bodies only.", "anchors": ["crates/ruby-analysis/src/indexer/inlay_hints.rs InlayNodeCollector::process_implicit_return", "crates/ruby-analysis/src/indexer/inlay_hints.rs visit_def_node", "crates/ruby-analysis/src/indexer/inlay_hints.rs visit_constant_write_node", "src/query/inlay_hints/generators.rs generate_structural_hints"]}
{"id": "C113", "title": "The lenses above a module count its uses", "statement": "For every module head in a file the editor is told the full name's uses: one lens for each of include, prepend and extend which counts and lists exactly the statements that mix the module in that way, and one which counts and lists the definitions of exactly the classes that mix the module in, directly or through modules, each once. The search ends for every graph, also when modules include each other.", "quantifier": "every syntax tree of classes and modules, every ancestry graph, cyclic or not, every module and every set of known files", "why_tests_cant": "Nesting and graphs are unbounded; cycles and chains through modules need reachability over arbitrary graphs.", "anchors": ["crates/ruby-analysis/src/indexer/code_lens.rs module_definitions_for_lens", "crates/ruby-analysis/src/engine/lookup.rs module_mixin_usages", "crates/ruby-analysis/src/engine/lookup.rs module_including_class_definition_ranges", "src/query/code_lens.rs get_code_lenses"]}
{"id": "C114", "title": "Ruby names of Java classes", "statement": "A Java class name given with dots or slashes is accepted exactly if it is a package of one or more Java identifiers followed by one or more class names divided by dollar signs; the package and the classes read are those written; only a name without package is refused as one. The constant an import defines is the innermost class. Classes whose packages follow Java's conventions never share a Ruby name.", "quantifier": "every text and every pair of accepted names", "why_tests_cant": "Names are unbounded; that no two classes share a Ruby name is a claim about all pairs.", "anchors": ["crates/jruby-support/src/names.rs JavaClassName::parse", "crates/jruby-support/src/names.rs imported_constant", "crates/jruby-support/src/names.rs ruby_fqn", "crates/jruby-support/src/names.rs package_proxy_module"]}
{"id": "C115", "title": "The Ruby declarations of a Java class", "statement": "The file generated for a Java class, read by Ruby, declares exactly that class: the file is well nested, the class stands under Java, its package and its outer classes with its superclass and interfaces, every field and method that can be declared is declared once with the types of its own descriptor, and every instance method with its own visibility, whatever comes before it. The documented parameters are those of the definition, and only the last parameter of a varargs method is a splat. A file is generated exactly if the class name and the descriptors needed parse.", "quantifier": "every class file, every order and mix of members, every depth of nesting", "why_tests_cant": "Visibility is a state that runs through the file; that it is right for every order of members is an invariant, not an example.", "anchors": ["crates/jruby-support/src/signatures.rs generate_ruby_signature", "crates/jruby-support/src/signatures.rs write_method", "crates/jruby-support/src/signatures.rs write_field", "crates/jruby-support/src/signatures.rs write_method_docs", "crates/jruby-support/src/signatures.rs valid_ruby_method_name", "crates/jvm-metadata/src/classfile.rs MemberInfo::visibility"]}
{"id": "C116", "title": "Types read from RBS files describe every value of the RBS type", "statement": "The type inferred for an RBS type describes every value of that RBS type, and for a call with type arguments every value of the declared return type with the parameters replaced. For types built from known classes, arrays, hashes, unions, optionals, booleans and literals it describes no other value.", "quantifier": "every RBS type of any depth, every assignment of meanings to class names, every list of type parameters and arguments", "why_tests_cant": "Types nest without bound, and unions are flattened, sorted and cut; that no value is lost is a statement about every type and every value.", "anchors": ["crates/ruby-analysis/src/inference/rbs.rs rbs_type_to_ruby_type", "crates/ruby-analysis/src/inference/rbs.rs rbs_type_to_ruby_type_with_substitutions", "crates/ruby-analysis/src/inference/rbs.rs build_substitution_map", "crates/ruby-analysis/src/inference/rbs.rs class_name_to_ruby_type", "crates/ruby-analysis/src/inference/rbs.rs rbs_record_to_ruby_type", "crates/rbs-parser/src/types.rs MethodDecl::return_type"]}
{"id": "C117", "title": "The type of a call with a block describes what the call returns", "statement": "When a type is given for a call with a block (map, inject, each_with_object and the like), every value the call can return is of that type, for every method that keeps its generic signature, if the types of the receiver, the arguments and the block's result are right.", "quantifier": "every set of overloads and generic signatures, every receiver and arguments, every behaviour of the block and of the method that keeps the signature", "why_tests_cant": "A generic signature promises something for every choice of its type variables; soundness of the solution is a statement about all of them and all methods, not about a table of core methods.", "anchors": ["crates/ruby-analysis/src/inference/higher_order.rs prepare_callable_set", "crates/ruby-analysis/src/inference/higher_order.rs PreparedCallableSet::finish", "crates/ruby-analysis/src/inference/higher_order.rs constrain_template", "crates/ruby-analysis/src/inference/higher_order.rs constrain_union", "crates/ruby-analysis/src/inference/higher_order.rs bind_variable", "crates/ruby-analysis/src/inference/higher_order.rs resolve_template"]}
{"id": "C118", "title": "A generic method type written in RBS means the same to the solver of calls with a block", "statement": "The signature made from the RBS type of a method with a block promises exactly what the RBS type promises: a call keeps the one if and only if it keeps the other, whatever sets of values the type parameters stand for; and it holds no unknown type.", "quantifier": "every RBS method type with a block, every list of type parameters of the class and of the method, every choice of sets for them, every behaviour of block and method", "why_tests_cant": "RBS types nest without bound and a type parameter may stand anywhere in them; that none is taken for a class, dropped or swapped is a statement about all types, not about the methods of the core library.", "anchors": ["crates/ruby-analysis/src/inference/higher_order.rs callable_signature_from_rbs", "crates/ruby-analysis/src/inference/higher_order.rs type_template_from_rbs", "crates/ruby-analysis/src/inference/higher_order.rs concrete_template", "crates/ruby-analysis/src/inference/higher_order.rs validate_signature"]}
{"id": "C119", "title": "A block that changes its parameters is accounted for in the type of the call", "statement": "When the block of a call leaves its parameters as they were, following them changes nothing; when it changes a hash it is given, as in each_with_object, the type of the call describes what is returned; a block may name fewer parameters than it is given; and with &:name the type describes what is returned if the type found for the method does.", "quantifier": "every set of generic signatures, receiver, arguments, block and types after the block", "why_tests_cant": "Whether the block is run never, once or often, and which of its parameters it changes, is open; the type must hold for all of these.", "anchors": ["crates/ruby-analysis/src/inference/higher_order.rs PreparedCallableSet::finish_with_proven_block_state", "crates/ruby-analysis/src/inference/higher_order.rs replace_proven_mutated_binding", "crates/ruby-analysis/src/inference/higher_order.rs PreparedCallableSet::finish_static_method", "crates/ruby-analysis/src/inference/type_tracker/mod.rs block_parameter_names", "crates/ruby-analysis/src/indexer/fact_collector/mod.rs finish_with_proven_block_state"]}
