# Formal model of ruby-fast-lsp in Rocq (Coq 8.16.1)

## Layout

`rocq/theories/` holds, per area of the code:

* `X_Model.v`  – Gallina transcription of the Rust code; each definition cites file and lines.
* `X_Spec.v`   – (where useful) a small specification written without the model's helpers.
* `X_Proofs.v` – lemmas.
* `X_Props.v`  – the property theorems only, each followed by `Print Assumptions` and an
  `Example` showing that its hypotheses are met by a concrete, non-trivial case.

A property that is false of the faithful model is recorded as a theorem `..._refuted`
(an explicit witness) and, where something weaker is true, `..._partial`.

## Plan per property

| id | what is modelled | how it is proved |
|----|------------------|------------------|
| C01 C02 C03 C07 | `indexing_scheduler.rs` as a step function over (queue, active set, counter, permits held, waiter states) | invariant by induction over the operation list; admission order against an independent spec predicate |
| C04 C05 | same; runs as operation lists | potential-function bound on the number of overtaking admissions; C05 by an explicit unbounded family of runs (refutation) |
| C06 | same, plus per-waiter awake/asleep flag set by `notify_waiters` | invariant: "admissible winner is awake" |
| C08 C09 C10 C11 | `indexing_resources.rs` in the same style | accounting invariant; gate by case analysis; C10/C11 refuted by witness, true parts `_partial` |
| C12 C13 C14 C15 | `single_flight.rs`, each atomic section one step | invariant over interleavings; eviction by list induction |
| C16 C17 C18 C19 | `persistent_cache.rs` envelope codec with zstd and SHA-256 as section variables, file-system step list with crash points, cleanup as list function | round trip, inversion of the decoder, crash invariant, list induction |
| C20 C21 | `navigation_demand.rs` state machine; Unicode case mapping as parameter | invariant; C21 refuted by witness, protocol part proved |
| C22 C23 | `indexing_status.rs` state machine | induction over operation list |
| C24 C25 C26 C27 C28 | `ruby_type.rs`, `shape_type.rs` as inductive types and functions; value semantics as separate spec | structural induction; refutations by witness |
| C29 C30 | `inference/method/recursive.rs` | fixpoint equations from the convergence test; permutation invariance |
| C31 | `inference/constant.rs` | rank argument on synchronous iteration |
| C32 C33 C38 C39 | `graph_store.rs`, `symbol_store.rs`, `reference_store.rs`, `file_owned_index.rs` | refinement to a map file -> last facts |
| C34 C35 C50 C67 | `resolution.rs::build_mro`, `module_includers`, `hierarchy.rs` | visited-set DFS and work lists: termination measure, NoDup, reachability; order against the unfolded order |
| C36 C37 C66 | `state.rs` retry of unresolved edges, cached chains, lexical lookup | confluence for batch resolve; refutation for incremental |
| C68 C69 | linter offense positions, formatter's end of document | induction over text |
| C40 C41 | `source_document.rs` over lists of characters with UTF-8/UTF-16 widths | induction over text |
| C42 C43 | `erb.rs` over byte lists | induction over the scan; refutation for nested escapes |
| C44 | `state.rs` stable encoders and FNV-1a | injectivity of prefix-free codes; multiplication by odd prime is a bijection mod 2^64 |
| C45 C46 | `state.rs` revisions, `file_id_map.rs` | invariant by induction |
| C47 C48 | descriptor and owner-id codecs | round trip and injectivity |
| C49 | `semantic_tokens.rs` delta encoder | decode/encode induction, underflow witness |
| C51 | `indexing_resources.rs` as for C08 | invariant by induction |
| C52 C53 | `indexing_status.rs`, `navigation_demand.rs` as for C22, C20 | induction over operation list |
| C54 | `single_flight.rs` as for C12 | invariant over interleavings |
| C55 C56 | `persistent_cache.rs` reservations (file locks), file-system model with volatile and durable contents | invariant over interleavings, process deaths and power failures; C56 refuted for a fresh shard directory |
| C57 | Wasm payload codec and path derivation of `persistent_cache.rs` | inversion of the decoder |
| C58 | `ruby_type.rs` narrowing operations over the value semantics of C24 | set inclusion by cases on the union |
| C59 C60 | `method_store.rs` as for C38 | refinement to the list of facts in force; C60 by cases on that list |
| C61 C62 | `diagnostic_store.rs`, `diagnostic_candidate_store.rs`, `ReferenceCandidateStore` | invariant: each bucket is the sorted list of the file's facts in force |
| C63 C64 C65 | `type_store.rs` | refinement to a history-only specification; ghost entry lists per subject and file |
| C70 | parameters and arguments as prism gives them, recorded signatures, the three warnings | cases on recorded facts against a relational specification of Ruby 3 argument passing |
| C71 | `levenshtein`, nearest keyword and method | rows equal the recursion; alignments compose, hence minimality; list induction |
| C72 | `find_rename_targets` on parsed trees | scoping specified separately on source; the visitor's events matched to occurrences one by one; environments related by the renaming |
| C73 | `selection_range_chains`, `handle_selection_ranges` on trees of locations | sorted without duplicates; greedy chain is maximal by induction; positions by C40 monotonicity |
| C74 | `FoldingRangeVisitor` on trees of locations | induction on the tree; last line by the position theorems |
| C75 | `VariableScopes`, the visitor, the two document queries, the fallback by name and the rebuild after a miss | simulation between the visitor's scope list and Ruby's scoping, by induction on the program; one program per excluded shape |
| C76 | `parse_class` as a parser over bytes with the attribute counter, limits as parameters; the format of JVMS chapter 4 as a relation between bytes and contents | combinator lemmas (a parser decides a relation), snoc induction over attribute lists, recursion on annotation values by input length |
| C77 | `analyze` and the unreachable visitor on a syntax tree of statements, branches, exception handling, loops, calls and blocks; an execution relation (statements started, outcome) with finite beginnings of endless runs | induction on executions: what the analysis calls diverging has no normal outcome; marked statements are disjoint from traces; converse by induction on syntax |
| C78 | Dispatch_* | collector of definitions and visibility statements, and the callee query; Ruby's side is a method table built by loading the program (entries that are bodies or only change visibility), the query is shown to read the table through the facts | partial |
| C79 | Dispatch_* | the search after the owner; find_body beyond the owner in the receiver's chain | partial |
| C80 | TypeFlow_* | the forward type tracker over a syntax of statements (assignment, branch, case, and/or, begin, loop, call with block, return) against a big-step semantics with exceptions and blocks; induction on runs with the tracker's state as invariant | partial, 21 refutations |
| C81 | TypeFlow_* | the return types the tracker collects, against the value a run ends with; same induction | partial, 3 refutations |
| C82 | Editor_* | notifications, analysis stages, watched-file work and refresh passes as steps of a transition system; an invariant over every run relating documents, pending analyses and the editor's history | partial, 4 refutations |
| C83 | Editor_* | the same runs, seen from one file that is not open | partial, 3 refutations |
| C84 | Queues_* | the debounce batch with any number of sleeping handlers; invariant against the trace of announcements and hand-overs | proved |
| C85 | Queues_* | the publication queue with its senders; invariant against the trace of publications and receptions | proved |
| C86 | Editor_* | the scopes of every document diagnostics are generated for, over every run | refuted |
| C87 | SigHelp_* | parameter lists of the argument diagnostics (Calls_*), argument spans and commas; the highlighted index against Ruby's binding of arguments | partial |
| C88 | SigHelp_* | parse trees with spans; the finder's fold returns the least span, which in a parse tree is the innermost call; argument index against commas | partial |
| C89 | WsSymbols_* | every function of the search with exact rational scores; the matcher against subsequences and initials, the cut against graded answers, the merge as a sort | partial |
| C90 | Names_* | printing and parsing of qualified names over code points with the Unicode tables as parameters; round trips both ways | partial |
| C91 | CallHier_* | the two traversals over the reference index of C33 and the symbol store; exact list by sorting and grouping | proved |
| C92 | TypeHier_* | the two traversals over the type graph of C32; direct edges and unresolved names, as permutations | partial |
| C93 | Outline_* | the visitor with its stacks and the rebuilding of the tree from parent indexes; the answer against a structural description of the tree, visibility against a model of Ruby | partial |
| C94 | Projects_* | the search as a recursive function on directory trees and the check of configured roots on an arbitrary disk; the answer against paths that lead to a Gemfile | partial |
| C95 | Projects_Model, Folders_* | the table of projects and of reached documents as a state machine; invariants over every history, routing as the innermost root | partial |
| C96 | Requires_* | Path joining, extensions, the search and the two visitors are modelled over an arbitrary disk; the search is shown equal to an inductive first-on-the-load-path relation, the visitors to membership in the tree | partial, four corners refuted |
| C97 | Yard_* | The converter and the list splitter are modelled on texts; a writer of abstract types is the specification, and reading what it writes is proved to give the denotation, by induction on the type with the splitters shown to keep balanced text together | partial, five corners refuted |
| C98 | YardDoc_Model, YardDoc_Spec, YardDoc_Proofs, YardDoc_Props | collecting the comment above a method and reading its tags; induction over the lines, simulation of the patterns on well-formed tags, a homomorphism for the order of tags | partial: five corners refuted |
| C99 | YardDoc_Model, YardDoc_Spec, TypeAt_Props | the scan for brackets and the split with positions; simulation with the split of C97, induction over the types | partial: four corners refuted |
| C100 | Version_* | Reading of names, of version outputs and the order of the sources as total functions on code points; names and numbers characterised by iff against an inductive relation, precedence by cases | partial (corners refuted) |
| C101 | Check_* | The check command: collection, order and deduplication of diagnostics, totals, exit code, root of a file, command line; canonical form by a lawful comparison and uniqueness of strictly sorted lists, command line by a grammar | partial (a corner refuted, rendering not modelled) |
| C102 | CompText_* | the cuts the completion handler makes in the line under the cursor, with bytes, UTF-16 units and characters kept apart and a panic for a cut inside a character; proved against a reading of the text for ASCII lines, by induction on the backward searches; the failures proved for all lines of their shape | partial (refuted beyond ASCII) |
| C103 | CompConst_* | parsing of the requested text, matching over all facts, ordering, limit, doubles and the inserted text; proved against a small grammar of requests by list induction and the lemmas on sorting | partial (complete up to fifty matches; three refuted corners) |
| C104 | CompMeth_* | collection along the lookup chain with availability, shadowing, core signatures, the fold over the members of a union, doubles; proved against the method that would be called, by induction over chains and members | partial (exact for one type; five refuted corners) |
| C105 | CompRecv_* | the backward scan from the dot, the literal tests, the scan for constructor assignments over the lines of the file; proved by lemmas on the last separator of a text and on trimming, against shapes of text given in the specification | partial (ten refuted corners) |
| C106 | ShapeRead_* | every read of shape.rs as a function over the types of Types_Model, results telling panic, error and type apart; soundness against what Ruby's Hash returns, by induction over the keys for dig, with the invariant that all shapes inside the receiver are well formed | partial (literal rest keys refuted) |
| C107 | Literal_* | analyze_literal as a recursive function on a small syntax of literals, with the loop over the elements of a hash as a step function; an evaluation relation for literals as specification; soundness by mutual induction over evaluations with an invariant relating the collected fields to the writes so far; totality by induction over the syntax (all types built are well formed) | partial (array indexes, several statements, optional splats, the warning refuted) |
| C108 | KeyComp_* | the finder over a tree of calls, the common keys of a type, the items; the smallest asking call by an invariant of the fold, the keys by refinement to "every alternative lists it", their meaning by the semantics of types (C25) | partial |
| C109 | Splat_* | the check of splatted arguments against Ruby's conversions (to_a, to_hash, nil); case analysis, refutation of the warning about one star for every value | partial |
| C110 | Zip_* | The check of the central directory, byte by byte; the layout of PKWARE's note as concatenations; equivalence by cutting the file at the offsets that are read, and by reading what was written | partial (refuted for a script in front) |
| C111 | Archive_* | parse_archive with the ZIP reader, the class parser and UTF-8 as functions; the classes wanted as a relation after the JAR specification; the selection by an invariant over the sorted entries | partial (four corners refuted) |
| C112 | InlayRet_* | The walk that collects the hints "return" and the end labels, over syntax trees; a relation for how a body may run to its end (branches, rescue, else, ensure, return, exceptions); both directions by induction on runs and on trees | partial: three corners refuted |
| C113 | Lens_* | The collector of modules and their names, the two searches in the ancestry graph (the second with a stack and a visited list), the list of lenses; names against a relation of declarations, searches against reachability, by a loop invariant with a measure | partial: four corners refuted |
| C114 | JName_* | `JavaClassName` whole; parsing against the written form, the Ruby name injective by cutting at `::` and at capitals | partial: two corners refuted |
| C115 | JStub_* | The generator as a list of lines; a small reader of Ruby (scopes, default visibility, tags) as specification; refinement: reading what is generated gives the facts of the class, by an invariant on the visibility in force | partial: seven corners refuted |
| C116 | RbsConv_* | RBS types with a meaning of their own (sets of values, a scope of parameters); soundness by induction on the type over the union laws of Types_*; exactness with an invariant on the alternatives | partial: five corners refuted |
| C117 | HigherOrder_* | The solver with its bounds; signatures mean a promise for every choice of sets for the variables; soundness by choosing the sets the variables were solved to, with growth of the substitutions as invariant | partial: two corners refuted |
| C118 | RbsSig_* | The translation of RBS method types to signatures; both sides mean sets of values for every choice of sets for the parameters, equal by induction on the types that are translated without loss; depth and unknown types by induction on the depth left | partial: two corners refuted |
| C119 | BlockState_* | finish_with_proven_block_state, finish_static_method and the lists of types both callers make; that equal types change nothing from what prepare announces, then by C117 | partial: two corners refuted |

## Trusted base

* Coq 8.16.1 kernel (`coqc`, rechecked with `coqchk`).
* `Print Assumptions` output of each property theorem (target: "Closed under the global context").
* The reading of the Rust code embodied in the `*_Model.v` files. Nothing is extracted or generated; correspondence
  is by inspection along the line citations.

Result of `Print Assumptions`: every property theorem reports "Closed under the global context"; no standard-library axiom is used.
Oracles (zstd, SHA-256, Unicode case mapping, class-name meanings, ...) are universally quantified arguments, with the few facts a
theorem needs of them stated as its hypotheses.

## Findings (claims that are false of the code as written)

Each is a theorem `..._refuted` with a concrete witness, or is noted where it was met.

* C05, C10, C11, C21: see the `_refuted` theorems in `Scheduler_Props.v`, `Governor_Props.v`, `Navigation_Props.v`.
* C19: if a cached file vanishes between the scan and its removal, cleanup still subtracts nothing and evicts one file too many.
  Limits are accounted per process, so two processes together can exceed them until the next cleanup.
  Left-over `.tmp` files are neither counted nor removed.
* C56: a shard directory created by `create_dir_all` is never fsynced in its parent, so the first product published into it can
  vanish in a power failure although the publication reported success.
* C24: `union` is not idempotent on a hand-built union nested in a union.
* C25: an exact shape `{b: Integer}` is accepted as a subtype of the exact shape `{a?: Integer}` (only the number of fields is
  compared), and a rest type with literal key `:a` is not compared with the optional field `a` of the target.
* C26: exact `{a: Integer}` <= open `{a: Integer, ...}` <= `Hash<?, ?>`, but not exact `{a: Integer}` <= `Hash<?, ?>`.
* C27: `widen_literals` (and `is_subtype_of` through it) panics on a shape whose field type holds an empty type-argument list;
  such a list is what the YARD converter makes of `Hash{=>Integer}`.
* C29: the fixed-point iteration stops after eight rounds, so a circle of eight methods with one typed body is reported Unknown
  (a circle of seven is solved).
* C30: which Unknown reason is published, and the solver's iteration counters, depend on the order of the definitions.
* C31: two definitions of one constant recorded at the same (file, start, end) are told apart by their order in the fact store.
* C39: `ReferenceStore::add` without a later sort leaves duplicate targets, so `facts_in_file` repeats references
  (`C39_raw_adds_repeat_refuted`); all callers in the code base sort afterwards.
* C35: class B includes M1 and then M2, both of which include M0: the chain is B, M2, M0, M1, so M1 follows a module it includes
  (Ruby: B, M2, M1, M0). A module included by a class and by its superclass comes before the superclass (Ruby: after it).
* C37: names of superclasses and mixins are resolved among namespaces only, so a value constant in an inner namespace does not hide
  an outer class of that name. All lexical lookups ignore the ancestors of the enclosing class and treat `class A::B` like nesting.
* C50: `implementor_namespaces` does not search from subclasses, so a module that (illegally) mixes in a subclass is missed.
- **C36** (`C36_never_re_resolved_refuted`): a superclass or mixin name that resolved once keeps its target although a
  definition in a nearer scope appears later (`retry_unresolved_graph_edges` only looks at pending names); a fresh load
  gives the nearer one.
- **C36** (`C36_one_call_mixins_refuted`, `C36_one_call_order`): `include M, N` gives both edges the range of the call
  (call_node/mod.rs 777-812), so their order is that of the interned ids: it depends on which file was loaded first, and for
  modules loaded in the order they are named it is the opposite of Ruby's.
- **C66** (`C66_stale_chain_refuted`): `resolve` and `resolve_files` add edges without clearing the two cached fallback
  chains or raising the semantic revision; a lookup between a deferred replacement and the resolve call leaves a stale chain.
- **C41** (`C41_end_refuted`): at the end of a text whose last line has no line break, the offset of the end is reported as
  (number of lines, 0), the start of a line that does not exist.
- **C68** (`C68_last_line_refuted`): a linter offense on the empty line after the final line break is an error, and one
  error discards every offense of the file.
- **C43** (`C43_raw_output_refuted`): `<%== x %>` (Erubi, Rails) is masked to `= x `: the second `=` stays in the Ruby source and
  makes it a syntax error.
- **C47** (`C47_exact_refuted`): object names in descriptors are not checked: `L[;` is accepted, which names no class of the JVM.
- **C49** (`C49_prefix_operator_refuted`, `C49_trailing_condition_refuted`, `C49_heredoc_refuted`): tokens are sent in visiting
  order, which is not text order for `!x`, `f while g` and `f <<A,g` with interpolation in the here-document. The unsigned
  difference of the two starts then overflows: a build with overflow checks panics, a release build sends nearly 2^32.
- **C45** (`C45_hash_refuted`): ASCII texts are not kept, so a registration whose text has the same 64-bit hash and line lengths
  as the stored one keeps the revision, and a stale commit passes. For every such hash there are two texts of 65 letters that do this.

- **C44, exports the fingerprint does not see.** `SemanticExportFingerprint::from_facts` writes nothing for
  `MethodFact::parameter_shape_complete`, for the constants a `MethodReturnEquation` depends on, and for
  `constant_type_equations`. So a file whose method changes from "parameters unknown" to "no parameters", or
  from returning constant `A` to returning constant `B`, is classified `BodyOnly`, and
  `src/capabilities/indexing.rs:457` does not refresh the diagnostics of the other open files
  (`C44_shape_refuted`, `C44_constants_refuted`, `C44_equations_refuted`; none involves a hash collision).

* **C70 destructured parameters are not counted.** `extract_method_params` records a required or post parameter only if it
  is a plain name; for `def f((a, b), c)` the recorded list has one parameter and still counts as complete, so the valid call
  `f([1, 2], 3)` is reported as "wrong number of arguments" (`C70_destructuring_refuted`).
* **C70 keys spelled with escapes.** Keyword names are taken from the source text of the key, so `f("fo\u006f": 1)` for
  `def f(foo:)` is reported twice although it is valid (`C70_spelling_refuted`).
* **C70 `**nil`.** The marker is ignored: `def f(h, **nil)` called as `f(a: 1)` raises and is not reported
  (`C70_no_keywords_refuted`).
* **C71 byte lengths.** `find_method_suggestion` skips candidates whose length in bytes differs by more than the limit although the
  distance counts characters, so a method one character away may not be offered (`C71_method_refuted`).
* **C72 heads.** The rename visitor enters the new scope before it visits the superclass, the receiver of `def x.f` or the
  expression of `class << x`, so local variables there are missed (`C72_head_refuted`).
* **C72 keyword parameters.** `x:` in a parameter list is not visited, so renaming from the body leaves the parameter
  (`C72_keyword_refuted`); so are block locals `|a; x|` (`C72_block_local_refuted`).
* **C72 shorthand.** Renaming `x` also rewrites the key in `{x:}` (`C72_shorthand_refuted`).
* **C72 new name.** The new name is not checked, so renaming to a name in use merges two variables (`C72_capture_refuted`).
* **C73 overlap.** The message of `a[1] = 2` and its arguments overlap, so one of them is left out (`C73_overlap_refuted`).
* **C74 bodies.** `visit_def_node` does not visit its children, so nothing inside a method can be folded (`C74_body_refuted`).
* **C74 kinds.** `unless`, `until`, `case ... in`, `class << self` and lambdas have no visit method and never fold (`C74_kinds_refuted`).
* **C74 end of file.** Without a final newline the end of the last construct is reported on the next line, so a construct on one
  line folds, to a line that does not exist (`C74_end_refuted`; same cause as C41).
* **C75 capture.** An assignment in a block always defines a new variable in the block's scope, so references of the outer variable
  miss it and go to definition from it leads to itself (`C75_captured_refuted`).
* **C75 shadowing.** References are collected from all scopes outwards, not only from the owner, so those of a block parameter
  include the outer variable it shadows (`C75_shadowed_refuted`).
* **C75 leaks.** Lambda literals, `class << x` and `def other.m` enter no scope, so their variables are mixed with those around
  (`C75_leak_refuted`).
* **C75 keyword parameters.** Keyword and block parameters are not recorded: no references, and go to definition falls back to the
  last assignment to that name anywhere in the file (`C75_keyword_refuted`). The same fallback is taken with the cursor at the start
  of the definition itself and leads into another method (`C75_start_refuted`).
* **C75 order.** `x = 1 if x` visits the condition first and loses the read (`C75_modifier_refuted`); a superclass or receiver is
  visited inside the new scope and loses its read (`C75_head_refuted`).
* **C75 repetitions.** A request that finds nothing visits the document again into the scopes it already has, so later requests list
  top-level variables twice (`C75_repeated_refuted`); a block parameter of known type is recorded three times (`C75_typed_refuted`).
* **C76 nesting.** `max_annotation_depth` is checked for annotations only. An element value that is an array of an array of ... is read
  by recursion with no limit but the attribute's size, so a 6 MB attribute makes the parser recurse two million deep and overflow
  its stack (`C76_depth_refuted`).
* **C76 empty records.** `kind` recognises records by having components, so `record R() {}` is reported as a class
  (`C76_kind_refuted`).
* **C77 loops that end by StopIteration.** `loop { e.next }` ends when the enumerator is exhausted (`Kernel#loop` rescues StopIteration
  and returns). The analysis takes a `loop` without `break` as endless and marks everything after it unreachable; the type tracker also
  drops the paths behind it (`C77_loop_refuted`).
* **C77 own methods.** `raise`, `fail`, `throw`, `exit`, `exit!`, `abort` and `loop` without receiver are taken for Kernel's. In a class
  with a method `abort` of its own, what follows the call is marked although it runs (`C77_own_method_refuted`).
* **C77 break in a for collection.** `for x in (break)` inside a `loop` breaks that loop; the break finder skips all of `for`
  (`C77_for_refuted`).
* **C77 exit kinds.** The exit kinds of a list are those of its last statement: `next 1 if y; raise` is reported as exiting by raise only.
  `callable_body.rs` drops the value of a branch without return or next among its kinds, so the block type misses the 1
  (`C77_kinds_refuted`).
- **C78** Ten ways in which a call leads to the wrong place, each with a program: a private method overriding a public one does not hide it (`C78_shadow_refuted`); a method redefined after `private :f` stays private (`C78_reopened_refuted`); `def self.f` below `private` is taken for private (`C78_self_method_refuted`); `private def f` and `private_class_method :f` have no effect (`C78_private_def_refuted`, `C78_private_class_method_refuted`); `self.f` of a private method is refused, which Ruby allows since 2.7 (`C78_on_self_refuted`); below `private`, `initialize` makes `A.new` private, so that it leads to `Class#new` (`C78_constructor_refuted`); a refused call is not passed to `method_missing` (`C78_method_missing_refuted`); a redundant `protected :f` narrows who may call (`C78_redundant_refuted`); a call in a module is bound to the module's own method even where the including class overrides it (`C78_module_refuted`).
- **C79** `super` in a module leads nowhere (`C79_module_refuted`), nor does `super` in `initialize`, which is filed as the class method `new` (`C79_constructor_refuted`).
- **C80** The type shown for a local is wrong on these programs, each with a witness run: a read early in a loop body of a variable assigned later in it (the first pass is overwritten by the later passes); three variables rotated in a loop (ten passes, only the last is joined with the entry); a break in a loop; a write to an outer local in a block; a write in an argument; `x ||= v`; `x /= v`; the variable of `rescue => e`; a read in an ensure clause; a parameter without declared type assigned in one branch (shown as nilable, other values forgotten); a guard whose surviving branch assigns the tested variable; a failed `instance_of?` (subtracts the class, subclasses included); a guard inside a protected body, seen from the rescue clause; an operand of type Object taken as always true; retry; a guard written with `&.`; an empty else of a begin; the value of a loop; the value of a `&.` call; a break out of a block; next in a block.
- **C81** The return type misses a return inside a block, takes the body of a final loop for its value, and takes `loop { }` without break as never ending although StopIteration ends it.
- **C82** A document opened with the text already indexed is not analysed, so it has no scopes of locals: local variable completion offers nothing until the first edit. After a failed analysis the text is registered although its facts are not there: save, close, reopen, and the stale facts are taken for the facts of the text. A file being collected after a watched-file change while it is opened, edited and closed keeps the discarded edit's facts when reopened. A text with more than ten syntax errors has facts when indexed from disk and none when edited.
- **C83** Closing a document without saving leaves the unsaved facts in the index. A change on disk announced while the file is open is skipped and not made up for when it is closed. Two announcements of the same file can be handled in the reverse order of their reads.
- **C84** Every announcement postpones the delivery of all earlier ones, without limit.
- **C85** The queue is drained in alphabetical order, so a busy document starves later ones.
- **C86** The nil-call check never fires in the server: every call of generate_diagnostics passes a document without scopes.
- **C87** Required parameters behind `*rest` or behind optional ones are highlighted for the wrong argument (`def f(*a, b)`, `def f(a = 1, b)`). Destructured parameters are missing from the list and shift the highlight. Keywords that go to `**` or `...` highlight a positional parameter.
- **C88** `f(a |, b)` highlights the second parameter; a comma in a comment behind the last argument counts; in `g(f(1, &b|), 2)` help is about g, in `g(f(1)|, 2)` about f.
- **C89** Capitals in a query make its other letters void ("Uzz" finds User). "Admin::User" finds nothing. `u_s_er` scores above `find_user` for "user", and the tests for word starts and for whole containment can never be reached. The server sorts the final answer by name, so that an exact match comes anywhere. Entries repeat when two folders hold a file in which two kinds of symbols share name and place.
- **C90** The text of a singleton class (`#<Class:Foo>`) is never read back.
- **C92** A class reopened in two files shows its superclass twice; reopened without superclass it also shows Object. `include A, B` and `include B, A` give the same list, ordered by internal numbers. `extend` in `class << self` shows an entry that cannot be opened.
- **C93** The children of a class or module come in reverse order of the text (C93_order_refuted). `private def a; end` makes every later method private, `obj.private` too; methods at top level and `initialize` are shown public; classes and constants behind `private` are shown private; attributes, `||=` constants and qualified constants are missing.
- **C94** One directory that cannot be listed makes the whole folder fail, so no project of it is registered. Files beside the projects of a folder belong to none. Configured roots are resolved through links while the paths of documents are not.
- **C95** A gem's file reached from a project is not indexed anew when the folder of that project closes. Rebuilding a project forgets which documents were reached from it; with two projects using the same gem they then have no project.
- **C90** `!`, `~` and the backquote are method names in Ruby; RubyMethod::new refuses them, so such definitions are not indexed (C90_unary_refuted).
- **C96** A file without extension hides the Ruby file of the same name: `require_relative "run"` beside an executable `run` and a `run.rb` leads to `run`, while Ruby loads `run.rb` (C96_bare_name_refuted, require_paths.rs 308-323).
- **C96** A feature that exists only as a native library (`json/ext/parser.so`) is reported as an error although Ruby loads it (C96_native_refuted).
- **C96** A path the engine has an identity for counts as existing; identities outlive their files, so deleting a file does not make its requires be reported (C96_gone_refuted).
- **C96** `require "./run"` names a file of the working directory; the search prefers `lib/run.rb` to the project's `run.rb` (C96_dot_refuted).
- **C97** `Hash{Symbol => Hash{Symbol => String}}` is read as a hash of anything, since all arrows are counted at the outermost level (C97_nested_map_refuted, converter.rs 132-134).
- **C97** `Array<Hash{Symbol => String}, String>` is read as an array of anything: the `>` of the arrow closes a bracket that was not opened (C97_map_in_array_refuted, converter.rs 280). In a tag the same text is cut at its comma, because there the arrow closes the bracket of the array, and the whole tag becomes unknown (C97_map_in_list_refuted, parser.rs 588-593).
- **C97** Words are compared without regard to capitals, so that classes `Void`, `Nil`, `True`, `False` and `Bool` are taken for nil, true, false and Boolean (C97_capitals_refuted).
- **C97** Unions of YARD types are not brought into the order all other unions have: `[String, nil]` and `[nil, String]` are different types (C97_order_refuted, converter.rs 217-240).
- **C97** `@return [String, nil]` and `@return [nil, String]` convert to different types, so whatever an RBS signature says one of them is reported as differing from it (`C97_mismatch_refuted`).
- **C98** A method whose comment contains both `@unavailable` and `@absent` panics the indexer; this is user text (`C98_availability_refuted`).
- **C98** `private def foo` and any other code before `def` on its line loses the comment above it (`C98_modifier_refuted`).
- **C98** Any number of blank lines between a comment and a method still attaches it: a licence header documents the first method (`C98_blank_lines_refuted`).
- **C98** The patterns are searched anywhere in a tag's line, so a tag that mentions `@return [X]` declares a result (`C98_mention_refuted`).
- **C98** Columns of tags are byte offsets where the editor counts UTF-16 units (`C98_columns_refuted`).
- **C99** On a type parameter the outer type is found (`C99_parameter_refuted`); after `Hash{A => B}` the whole list is one type (`C99_after_map_refuted`); after non-ASCII letters the place is wrong (`C99_columns_refuted`); on the bracket that closes `[nil, String]` the answer is the text `nil, String` (`C99_closing_refuted`).
- **C100** `ruby "~> 3.1"` in a Gemfile is never read (`C100_pessimistic_refuted`, for every version text): the second word is the operator alone, although the code trims it on purpose. `ruby '3.1', engine: 'jruby'` is not read at all and `ruby '3.1.4', engine: 'jruby'` is read as MRI 3.1 (`C100_engine_refuted`). A `.rvmrc` with `rvm use jruby-9.4.5.0` is read as MRI 9.4, since the text is cut at `ruby-` (`C100_rvm_refuted`). Names like `3.4-dev` are not read (`C100_dev_refuted`).
- **C101** `ruby-fast-lsp check /some/path` fails when the current directory no longer exists, although the path does not depend on it: the current directory is asked for before it is known to be needed (`C101_no_directory_refuted`).
- **C102** `find_completion_at_position` cuts the line at `position.character`, a count of UTF-16 units, as if it were a byte offset. `&line[..char_pos]` panics when that falls inside a character: asking for completion right after typing a letter such as e-acute as the first non-ASCII character of a line always does (`C102_accent_refuted`), whatever else is on the line. In the text fallback `[start + 1..]` also assumes that the separator in front of the word is one byte long, so a word after an arrow or a dash inside a string fails at every position (`C102_symbol_refuted`). Where there is no panic the text is cut short (`C102_short_refuted`), and the test for `::` counts characters, so a character of two units hides it (`C102_astral_refuted`).
- **C102** The textual test for a call is also true in a range: after `1..lim` only methods are offered, no local variables (`C102_range_refuted`). After `A::B::`, where the tree has nothing to say, the top-level constants are asked for (`C102_nested_refuted`). Snippets are only ever offered in their general form (last part of `C102_kind_partial`): the code that shortens iterator snippets after a dot is never reached from the handler.
- **C103** Constants are offered by their last name and doubles are dropped by it: of two constants with the same last name in different namespaces only one can be chosen (`C103_twin_refuted`). The inserted text is the bare last name even where that does not reach the constant (`C103_unreachable_refuted`). The limit of fifty is applied before the doubles are dropped, so fifty namespaces with a constant of one name leave that one label and hide everything after it (`C103_crowded_refuted`).
- **C104** Unions are met per source, so a method one member has from the project's code and another from the core signatures is not offered (`C104_mixed_refuted`), and neither is one whose parameters have different names (`C104_parameters_refuted`). Visibility is not looked at: private methods are offered after an explicit receiver (`C104_private_refuted`). The side is chosen by the outer type, so after a value that is one of two classes the instance methods are offered (`C104_class_objects_refuted`). `class_names_for_type` also asks for the last name, so `M::String` is offered the core methods of `String` (`C104_namesake_refuted`). An empty union panics in `method_matches_for_type`; none is built by the code modelled here (`C104_answered`).
- **C105** When the syntax tree has no receiver, the text is read, and several ordinary receivers are misread: `1.5.` as an Integer (`C105_float_refuted`; the branch for floats is never reached, since the scan stops at the dot), `A::B.` as the top-level `B` (`C105_nested_refuted`), `::B.` as a Symbol (`C105_top_refuted`), `list.map { ... }.` as a Hash (`C105_block_refuted`), `[1, 2][0].` as an Array (`C105_element_refuted`), `_.` as an Integer (`C105_underscore_refuted`), `unknown.size.` as the local variable `size` (`C105_chain_refuted`).
- **C105** `infer_constructor_assignment_type` looks at the whole file from the top: an assignment in another method or below the cursor counts, and `x = Foo.new().name` makes `x` a `Foo` (`C105_elsewhere_refuted`). `[false].` is an Array of TrueClass (`C105_false_refuted`), and `x = [1].` gets nothing (`C105_array_refuted`).
- **C106** A shape whose remaining keys are described by a literal type answers wrongly for that very key: `h[:a]` is NilClass and `h.key?(:a)` is FalseClass, though the hash may hold `:a` (`C106_rest_key_refuted`). The key is widened before it is compared with the type of the remaining keys, so a literal type there never matches. Only the loader of external facts can build such a shape.
- **C107** An index into an array literal never takes nil into account: `["a"][5]` is typed String, and so is `["a", "b"][0, 1]` (`C107_index_refuted`, `C107_part_refuted`). The comment in analyze_array_access says nil is added; it is not.
- **C107** `{a: 1, **h}`, where h is a record with an optional key a, is typed as if a could only be absent or come from h (`C107_optional_splat_refuted`): the optional field replaces the required one instead of being joined with it.
- **C107** `return foo`, where foo is not a literal, is checked as if it returned nil, so every declared type that excludes nil gets a declared-return-type-mismatch warning (`C107_return_refuted`). A declared superclass of the literal's class is warned about too (`C107_superclass_refuted`), while an empty method and an earlier return are not checked at all (`C107_unchecked_refuted`).
- **C107** A list of statements is typed by its first statement (`C107_statements_refuted`).
- **C108** A key is inserted into the text as it is: accepting the key `na me` in `h[:na]` gives `h[:na me]`, and a string key with a quote in it ends the string (C108_raw_symbol_refuted, C108_raw_string_refuted).
- **C108** The name of an index call reaches from bracket to bracket, so with the cursor after the dot in `h[1, "a."]` the hash is taken for the receiver and its methods are offered (C108_bracket_refuted).
- **C109** The warning about `*e` is always wrong: Ruby accepts any value there (`f(*42)` passes 42, a hash or range is listed), so no reported call raises (C109_single_refuted).
- **C109** `**x` is reported when x is nil, which Ruby 3.4 and later accept; the literal `**nil` is not reported (C109_nil_refuted).
- **C109** Only the last name of the class is compared: an instance of the project's `My::Integer` that has to_hash is reported (C109_namesake_refuted).
- **C109** `xs = [1]; f(**xs)` is not reported though `f(**[1])` is (C109_array_refuted).
- **C110** `C110_script_refuted`: a self-running JAR (a script followed by a JAR) is refused: the table is looked for at the stored offset counted from the start of the file, Java counts back from the end record.
- **C111** `C111_old_release_refuted`: one entry under META-INF/versions/8 loses all classes of a JAR, even if the manifest does not say that there are such directories; Java takes no notice of it. `C111_section_refuted`: Multi-Release counts in any section of the manifest, in Java only in the main one. `C111_misplaced_refuted`: one class file that is not where its name says (BOOT-INF/classes/…) loses all the others. `C111_cut_refuted`: an entry that claims exactly max_entry_bytes but is longer is silently cut short.
- **C112** `process_implicit_return` enters the body of a `begin` even when there is an `else` clause: in `begin; a; rescue; b; else; c; end` the expression `a` gets the hint `return`, although its value is dropped and a real `return` there would skip the else clause (`C112_else_refuted`).
- **C112** The visitors of assignments to constants do not go on into the value: methods in `X = Struct.new(:a) do def f … end end` get no hints, no labels, no types (`C112_constant_refuted`).
- **C112** An endless method `def f = 1` gets the label `def f` as if it had an `end` (`C112_endless_refuted`).
- **C113** The collector of lenses pushes only the last name of a path: for `module A::B; module C; …` the lenses above `C` are those of `B::C` (`C113_path_refuted`).
- **C113** A head from the top, `module ::A` inside `B`, gets the lenses of `B::A` (`C113_root_refuted`).
- **C113** `module_including_class_definition_ranges` goes on through modules that *extend* the module: with `module N; extend M; end; class C; include N; end` the class `C` is counted for `M`, which is in no chain of `C` (`C113_extend_refuted`).
- **C113** `class << self; include M; end` is the same as `extend M` but is shown neither as a mixin nor as a class (`C113_singleton_refuted`).
- **C114** `package_proxy_module` is not injective: `a.b.C` and `aB.C` are both `Java::AB::C` (`C114_distinct_refuted`).
- **C114** A class whose name begins with a small letter is accepted and named `Java::A::b`, which is no Ruby constant (`C114_constant_refuted`).
- **C115** `valid_ruby_method_name` refuses Ruby keywords, but a Ruby method may be called by one: `java.util.Iterator#next` and `Matcher#end` are never declared (`C115_next_refuted`).
- **C115** `private` does not bind `def self.…`: private static methods and private constructors are public in the generated file (`C115_static_refuted`).
- **C115** Fields are written whatever their visibility, and final ones get a writer (`C115_field_refuted`).
- **C115** A static final field whose name begins with a small letter (`File.separator`) is not declared at all (`C115_constant_lost_refuted`).
- **C115** A constructor is `def self.new` with `@return [nil]`, the descriptor's void (`C115_constructor_refuted`).
- **C115** With the Java parameters `arg1` and `end` the definition is `def go(arg1, arg1)`, which Ruby refuses (`C115_twice_refuted`).
- **C115** The outer scopes of a nested class are always `class`: `Map$Entry` declares `class Map`, `Map` itself `module Map` (`C115_outer_refuted`).
- **C116** `void` is taken for `nil`, though such a method may return anything (`C116_void_refuted`).
- **C116** Type parameters inside a tuple are not replaced: `-> [K, V]` gives classes called `K` and `V` (`C116_tuple_refuted`).
- **C116** A method's own type parameter is taken for a class: `Array#map` returns arrays of instances of a class `U` (`C116_own_parameter_refuted`); so is a class parameter without argument (`C116_unbound_refuted`).
- **C116** Of several overloads only the first gives the return type (`C116_overload_refuted`).
- **C117** The block of `inject` is typed once, with the first argument's type for the accumulator. If its result widens that type the block is not typed again: with a block that gives Float for Integer and String for Float the call is said to return Integer or Float (`C117_accumulator_refuted`).
- **C117** `is_compatible_with` holds if either type is a subtype of the other. A block returning `Symbol` matches the expected `:skip`, and the other symbols are missing from the result's type (`C117_compatible_refuted`).
- **C118** A type parameter inside a record is not seen: of `[U] { (Elem) -> U } -> { a: U }` the result is said to hold an instance of a class `U` (`C118_record_refuted`).
- **C118** `void` as the result of a block becomes `nil`, and the block's type is checked against it: `each { … }` declared `{ (Elem) -> void } -> self` gets no type unless the block returns nil, where `untyped` in its place would give the receiver (`C118_void_refuted`).
- **C119** In the type tracker the list of types after the block has one entry for each name the block gives. If it names fewer parameters than the method yields, as in `[2].map { "x" }`, the lengths differ and the call gets no type (`C119_fewer_names_refuted`). The fact collector fills the list up (`C119_collector`).
- **C119** The type a hash has after the block replaces the one it had before. If the block is never run, as for an empty receiver of `each_with_object({})`, the result lacks the keys it is said to have (`C119_never_run_refuted`).

## What is modelled, per area

* **Types** (`Types_*.v`): all of `RubyType`'s algebra and `ShapeType` construction, comparison, mapping and generic view.
  Names are (variant, text) pairs of numbers and strings are numbers: only equality and order are used. Display, heap accounting
  and parsing of names are not modelled. `is_subtype_of` is the least fixed point of its recursion (`C25_recursion`).
* **Method returns** (`Scc_*.v`, `Returns_*.v`): the whole of `recursive.rs` (component search, evaluation, bounded iteration,
  publication, counters) and the constructors of equations. Methods are numbers. How bodies become equations is not modelled.
* **Constants** (`Constants_*.v`): the whole of `inference/constant.rs`. Name resolution of a dependency is an arbitrary function.
* **Symbol index** (`Sort_Lib.v`, `Index_Lib.v`, `Symbols_*.v`): the whole of `symbol_store.rs` and `file_owned_index.rs` except
  memory estimates. Hash maps are association lists, so nothing can depend on their iteration order. The specification is the list
  of facts in force, computed from the history of calls alone.
* **Method index** (`Methods_*.v`): all of `MethodStore` except memory estimates; fields that are only compared are one number.
* **Reference index** (`References_*.v`): all of `ReferenceStore`. **Diagnostics and candidates** (`FileStores_*.v`): all of
  `DiagnosticStore`, `DiagnosticCandidateStore`, `ReferenceCandidateStore`; memory estimates left out.
* **Ancestry graph** (`Graph_*.v`): all of `SemanticGraph`; memory estimates and `shrink_to_fit` left out. `remove_file` looks for
  empty nodes before it removes edges, so a node without definitions and edges can stay in the map; no query shows it.
* **Type index** (`TypeStore_*.v`): all of `TypeStore`, including both interning tables, the expression encoding and the in-place
  updates; memory estimates and `shrink_to_fit` left out. Types, names and scopes are numbers. Observation: at one start two facts with
  the same type and different origins are ambiguous for `type_at` but resolved for `named_type_in_file_before_matching`.
* **Ancestry queries** (`Ancestors_*.v`): `build_mro` and the method lookup chain with its fallbacks and its proof barrier,
  implementors, includers, the lexical constant lookups. The graph enters as the lists of nodes and edges it reports (C32, C33).

**Engine around the graph** (Engine_*.v; engine/state.rs replace_facts_deferred 2253, resolve 1645, retry_unresolved_graph_edges
3749, resolution.rs 2527-2573). Modelled: the graph part of a file's facts, replacement, resolution of pending names with the
singleton companion edge, the two cached fallback chains, lookups. Files keep their ids; the numbering of names is a parameter
(any injective one). Not modelled: the other stores (C38, C39, C59-C65 have them), resolve_files' selection of reference
candidates, caches of callers keyed by the semantic revision.

**Positions** (`Text_Lib`, `Position_*`). Texts are lists of Unicode scalar values with their UTF-8 bytes and UTF-16 widths.
Modelled: line starts, `position_to_offset`, `offset_to_position` of the source document and of source files, the linter's
conversion of line and column, the formatter's end of document. Not modelled: `src/utils/parser.rs::offset_to_line` (no callers).

**Templates** (`Erb_*`). `mask_erb` over byte lists with its slices, and `is_ruby_offset`. Not modelled: which files are
templates (`is_erb_path`), and what the parser makes of the masked source.

**File ids** (`FileIds_*`). Unix path components, normalization by collecting components, the id map. Not modelled: Windows paths,
heap estimates.

**JVM descriptors** (`Descriptor_*`). Both parsers over bytes; error texts dropped.

**Generated owners** (`Owner_*`). Construction, recognition and canonical parsing over bytes, decimal lengths included; the Unicode
tables of `RubyConstant::new` are arguments.

**Semantic tokens** (`Tokens_*`). The token visitor over trees with the node kinds it tells apart, `add_token` in both build
profiles, the legend. Not modelled: which tree prism builds for a text (the trees of the refutations are those of its
documentation), the list of special method names (an argument).

**Source snapshots** (`Snapshots_*`). Engines of one process with their instance ids, clones, registration (three entry points),
snapshots, conditional registration and conditional commits. The fact stores are a parameter.

### Export fingerprints (`Fingerprint_*`, C44)
`state.rs:246-1090`: the facts of a file, every encoder `from_facts` reaches (names, kinds, types, shapes,
callable templates and signatures, callable bodies, graph facts), the two FNV-1a lanes, sorting, the final
hash and `SemanticChange::classify`. Proved: the code of a fact is read back uniquely whatever follows it
(streams under 2^64 bytes), one byte changes both lanes (the multiplier is odd; its inverse modulo 2^64 is
exhibited), order and ranges do not matter, and without collisions the classification is exact on what is
covered. Not modelled: `SemanticResultFingerprint` (used by comparisons of whole runs only), `ShapeType.depth`
(derived), UTF-8 validity of the strings.

**Calls** (`Calls_*`, C70). `extract_method_params`, `method_signature_candidate_from_arguments`, `MethodArity`, `arity_mismatch`
and `push_signature_diagnostics` for one method with a complete list of parameters. The specification is Ruby 3's argument passing
(a relation from argument lists to what is passed, and a predicate saying what a method takes). Not modelled: which method a call
resolves to, ranges, message texts, Ruby 2's conversion of a trailing Hash to keywords.

**Suggest** (`Suggest_*`, C71). `levenshtein` with its two rows, `suggestion_threshold`, `closest_keyword`,
`method_names_for_owner` after the facts have been fetched, `find_method_suggestion`. The specification counts single-character
edits in any order.

**Rename** (`Rename_*`, C72). The two passes of the visitor over a reduced prism tree (reads, targets, writes, parameters, scopes with
head and inner part). `Rename_Spec` gives Ruby's scoping on source and how prism computes depths from it. Not modelled: pattern
matching captures (targets in prism, covered as such), `eval`, numbered parameters.

**Ranges** (`Ranges_*`, C73, C74). The selection collector, its sort, dedup and chain, the nested reply; the folding visitor. Syntax
trees are reduced to kinds, locations and the name or message locations the collector asks for; prism itself is not modelled.

**Locals** (`Locals_*`, C75). `VariableScopes` (enter, exit, define, reference, rename targets, lookup by cursor), the fact
collector's treatment of local variables reduced to a tree of assignments, reads, parameters and scopes, the document queries, the
fallback over the file's symbols and the rebuild in find references. Spec: Ruby's scoping as an environment walk in text order. Not
modelled: type assignments per variable, the identifier resolution that decides that the cursor is on a local variable.

**Class files** (`Classfile_*`, C76). All of `classfile.rs` that `parse_class` runs: cursor, constant pool, modified UTF-8 and UTF-16,
members, code with its lines and local variables, annotations with their values, inner classes, record components, module, limits,
uniqueness of attributes, parameter naming and `kind`. Simplifications: every error is `None`, so which of two faults is reported does
not show; sums of counts are exact numbers (the code's `checked_add` cannot overflow before the limit is passed); the recursion on
annotation values takes the bytes left as fuel, proved enough. The specification `Classfile_Spec` follows JVMS chapter 4 for what the
parser reads: it does not demand what the parser does not check (code, stack maps, constant kinds behind unused indices, names).

**Control flow** (`Flow_*`, C77). `control_flow.rs` (`analyze` with all its helpers, the break finder, the terminating calls) and the
unreachable-code visitor of `src/capabilities/diagnostics.rs`. The tree has the nodes the analysis distinguishes; every other node is
`Group` (children in order) or `Lit`. Exit kinds are modelled as bits (`C77_kinds_refuted` only). Spec: an execution relation
written from the Ruby documentation; conditions, called methods and exceptions are nondeterministic. Not modelled: the source ranges of
the diagnostics (a statement is a number), the other users of the analysis (type tracker, callable bodies).
- **Method calls** (Dispatch_*): modelled are the visibility part of the fact collector (visibility stack, `private` with and without names, `def`, `def self.`, `class << self`, filing of constructors), the stored facts and overrides, and `resolve_method_callees_inner` with everything it calls, as well as `super`. The ancestor chain, the includers of a module, execution contexts and the kinds of files are parameters. Not modelled: attr_*, define_method, module_function, alias, @unavailable/@absent, the sorting of callees found through execution contexts, union receivers. The specification fixes the ancestors before loading, takes `initialize` as always private and lets a visibility statement of a class with a prepended module act on the class's own entry.
- **Types of locals** (TypeFlow_*): type_tracker/mod.rs 1118-1388, 2131-2330, 2575-2953, 2983-3232, 4191-4260, 4507-4552, 5468-5590, narrow.rs, control_flow.rs. Left out: hash shapes and their mutation, procs in locals, dependencies on constants, equations for recursive methods, array and hash literals, pattern matching, multiple assignment, for. The index's answers are parameters, assumed true of the run ([honest]).
- **Documents** (Editor_*): indexing.rs 140-870, file_processor.rs 336-606 and 884-914/1282-1566 by stage, server.rs 555-564, ruby_document.rs. Facts are taken as a function of the text; initial indexing at the same time, several engines, requests, the linter and configuration changes are left out. A watched-file notification of this model is a batch handed on by the debounce queue (C84).
- **Queues** (Queues_*): server.rs 158-218, 1296-1335, notification.rs 365-373. Timers are replaced by arbitrary order; the overflow of the generation counter is left out.
- **Signature help** (SigHelp_*): analyzer.rs 410-545, signature_help.rs 247-340. The tree is any tree of nodes with locations; the parser and the resolution of the method are left out, and so are label texts.
- **Workspace symbols** (WsSymbols_*): engine/workspace_symbols.rs, query/workspace_symbols.rs, capabilities/workspace_symbols.rs, whole. Lowercasing and the test for capitals are arbitrary functions; scores are rationals instead of f64; the symbols come as a list in index order.
- **Names** (Names_*): Display of fully_qualified_name.rs, RubyConstant::new, RubyMethod::new, the two parsers of hierarchy.rs. Generated owners are left out.
- **Call hierarchy** (CallHier_*): hierarchy.rs incoming and outgoing calls on the reference index of References_*.
- **Type hierarchy** (TypeHier_*): hierarchy.rs supertypes and subtypes on the graph of Graph_*.
- **Outline** (Outline_*): indexer/document_symbols.rs and capabilities/document_symbols.rs, whole, with the namespace stack of scope_tracker.rs they use. Symbols contributed by extensions are left out.
- **Projects** (Projects_*): indexer/project_roots.rs, whole. Names are valid UTF-8; a directory tree does not change during the search.
- **Folders** (Projects_Model, Folders_*): server.rs workspace_for_uri, analysis_workspace_for_uri, retain and release of external documents, add_workspace_folder, add_project, remove_workspace_folder; notification.rs handle_did_change_workspace_folders up to the choice of documents opened anew. Folder URIs are identified with paths; engines are numbers; the indexing that follows is left out.
- **Require paths** (Requires_*): require_paths.rs lines 60-232 and 292-400. The disk and the identities of the engine are arbitrary predicates. Simplified: a slash at the end of an argument is dropped; the offsets' conversion to u32 and the range of the target (234-290) are left out.
- **YARD types** (Yard_*): converter.rs lines 58-340 and parse_type_list of yard/parser.rs. White space is that of ASCII, constants as in Names_Model over arbitrary Unicode tables; the names that could not be read, which no caller uses, are left out.
- **Documentation comments** (YardDoc_*, TypeAt_Props): collecting, description and tags (all patterns, the option's default and description left out), availability, the type under the cursor. White space is ASCII's; what is a letter to the patterns is an arbitrary table. That a comment with nothing in it counts as none is left out, as are the file-level entry points that rebuild all lines.
- **Ruby version** (Version_*): `ruby_version.rs`, `version_detector.rs` and the JRuby table of `jruby-support/src/version.rs` are modelled function by function on lists of code points (ASCII white space); which files exist and what the commands print is a record given to the model. `version_managers.rs` is not used by the program and not modelled.
- **Check command** (Check_*): `check.rs` from the collected files and diagnostics to the report, and `run_check_command` of `main.rs`. Paths are lists of components. Not modelled: the indexing run, the check that a file did not change meanwhile, inferred types and telemetry in the report, rendering.
- **Completion, the text** (CompText_*): the choice between constants, methods and everything, and the text the candidates must start with. The findings of the syntax tree (identifier, Hash key target, statement position) and the character tables are arguments.
- **Completion, constants** (CompConst_*): the parsing of the requested text, the candidates among all declarations, their order, the limit and the text inserted. Letter folding, the validity of a name and the test for made-up names are arguments; the documentation shown with an item is not modelled.
- **Completion, methods** (CompMeth_*): the candidates after a dot, from the project and from the core signatures, for one type and for unions. Lookup chains, declarations per owner and the signature table are arguments; documentation, details and snippets of an item are not modelled.
- **Completion, receivers** (CompRecv_*): the receiver type read off the text in front of a dot. The answers of the engine and of the variable scopes, the character tables, `RubyConstant::new` and number parsing are arguments.
- **Shape reads** (ShapeRead_*): index, fetch, dig, keys, values, key? and the generic view on hashes with known keys. Error reasons are not kept apart; the table of method names and each_return are not modelled.
- **Literals** (Literal_*): typing of literals, arrays, hashes and indexes into them, and the check of the declared return type. Texts of strings and symbols are numbers, number literals have no value, source positions are not kept; texts confused by from_utf8_lossy are not modelled.
- **Keys of hashes** (KeyComp_*): the finder of the call under the cursor, the keys common to all alternatives, the filter and the items. Not modelled: the parser, the types the analysis finds for the receiver (two functions), the conversion of offsets to positions (C01), u32 overflow.
- **Splats** (Splat_*): the whole of bad_splat.rs. Not modelled: how the type of a local variable is found (a function), the text of the message.
- **ZIP tables** (Zip_*): validate_central_directory_names with its two readers. Not modelled: the zip crate itself, ZIP64, the texts in errors.
- **JVM archives** (Archive_*): parse_archive and its helpers. Functions given: the ZIP reader, parse_class (C76), UTF-8 decoding, white space. Not modelled: the digest, the texts in errors.
- **Return hints and end labels** (InlayRet_*): `process_implicit_return`, the visitors of class, module, method and constant nodes, the range test. Not modelled: the parser, type hints, chained call hints, offsets to positions.
- **Lenses above modules** (Lens_*): `module_definitions_for_lens`, `module_mixin_usages`, `module_including_class_definition_ranges`, `get_code_lenses`. Not modelled: the parser, offsets to positions, the order of places inside one lens by the text of their addresses.
- **Java class names** (JName_*): `JavaClassName`. What is alphabetic is a parameter; all that is assumed of it is that `.`, `/`, `$` and `:` are not.
- **Generated Ruby declarations** (JStub_*): `generate_ruby_signature` and all it calls. Left out: indentation, the text of comments that are not tags, the descriptor parser (Descriptor_*).
- **RBS types** (RbsConv_*): the two conversions, the substitution map, the return type of a method that was found. Left out: the RBS parser and the search for the method; names are numbers with a mark for a leading `::`.
- **Calls with a block** (HigherOrder_*): preparing and finishing a call from its signatures. Left out: known procs.
- **Signatures from RBS** (RbsSig_*): making the signature of a method with a block from its RBS type. Left out: reasons for failures and whether the block is required.
- **Changed block parameters and `&:name`** (BlockState_*): finishing a call with the types its parameters have after the block, and with a method name. Left out: known procs, and how the tracker follows the parameters through the block.

## Not modelled (global)

Rust memory layout, integer overflow at 2^64 unless stated, poisoned mutexes, the async runtime itself (tokio), the Prism parser,
network transport, timing/telemetry numbers. Each model file states its own simplifications.
