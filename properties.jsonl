{"id": "C01", "title": "GC never frees reachable data", "statement": "After any garbage collection, every handle that resolved before it and is reachable from the roots (scope stack, persistent roots, symbol registry, extra roots) through the object graph still resolves, to exactly the same contents.", "quantifier": "every heap state (any slot contents, any cyclic object graph, any roots), every handle", "why_tests_cant": "the object graph is unbounded and may be cyclic and shared; a missed edge only shows for particular graphs", "anchors": ["vm-js/src/heap.rs: Heap::collect_garbage_with_extra_roots, Tracer, Trace impls"]}
{"id": "C02", "title": "GC frees everything unreachable", "statement": "After any garbage collection no handle that is unreachable from the roots resolves any more, and the bytes charged for freed slots are given back.", "quantifier": "every heap state and every handle", "why_tests_cant": "leaks need specific cyclic graphs; tests only see finitely many", "anchors": ["vm-js/src/heap.rs: collect_garbage_with_extra_roots (sweep), HeapId generation"]}
{"id": "C03", "title": "Allocation returns a fresh handle and disturbs nothing", "statement": "A successful allocation returns a handle that resolved to nothing before, resolves to the new value afterwards, and every other handle that is not collected by the allocation's GC keeps its contents.", "quantifier": "every heap state, every allocated value, every other handle", "why_tests_cant": "slot reuse through the free list depends on the whole allocation history", "anchors": ["vm-js/src/heap.rs: Heap::alloc_unchecked, validate, get"]}
{"id": "C04", "title": "Stale handles never resolve to another object", "statement": "Once a handle has been freed by the collector it never resolves again, whatever is allocated and collected later.", "quantifier": "every finite history of allocations and collections", "why_tests_cant": "needs histories as long as the generation counter (2^32 reuses of a slot) to fail", "anchors": ["vm-js/src/heap.rs: Slot.generation wrapping_add, validate; vm-js/src/handle.rs: HeapId"]}
{"id": "C05", "title": "Byte accounting is exact and the heap limit is respected", "statement": "used bytes always equal the sum of the bytes charged to live slots, and an allocation only succeeds when the total stays within max_bytes; otherwise it fails with OutOfMemory and leaves live data intact.", "quantifier": "every history of allocations, resizes and collections, every limit", "why_tests_cant": "accounting drift appears only after particular interleavings of growth, reuse and collection", "anchors": ["vm-js/src/heap.rs: used_bytes, update_slot_bytes, ensure_can_allocate_with, HeapLimits"]}
{"id": "C06", "title": "Persistent roots", "statement": "A value registered as a persistent root is returned by lookup until it is replaced or removed, and distinct live root ids never interfere; an id that has been removed never denotes someone else's root.", "quantifier": "every history of add/set/remove of persistent roots", "why_tests_cant": "id reuse through the free list depends on history", "anchors": ["vm-js/src/heap.rs: add_root, get_root, set_root, remove_root, RootId"]}
{"id": "C07", "title": "Scopes root exactly their extent", "statement": "Values pushed as stack roots in a scope stay rooted until that scope is dropped, and dropping a scope restores the root stack to what it was when the scope was opened, for any nesting.", "quantifier": "every properly nested sequence of scope open/push/drop", "why_tests_cant": "nesting depth and interleaving are unbounded", "anchors": ["vm-js/src/heap.rs: Scope::push_root, push_roots, reborrow, Drop for Scope"]}
{"id": "C08", "title": "Essential invariants of ordinary objects", "statement": "Over any history of define/set/delete/preventExtensions operations: a non-configurable property is never deleted, never becomes configurable, never changes enumerability or kind; a non-writable non-configurable data property never changes value; a non-extensible object never gains a property and never becomes extensible.", "quantifier": "every initial object, every finite history of [[DefineOwnProperty]]/[[Set]]/[[Delete]]/[[PreventExtensions]] calls with arbitrary descriptors", "why_tests_cant": "the invariants quantify over all histories and all partial descriptors", "anchors": ["vm-js/src/object_ops.rs: ordinary_define_own_property, validate_and_apply_property_descriptor, ordinary_set, ordinary_delete", "vm-js/src/heap.rs: define_property"]}
{"id": "C09", "title": "DefineOwnProperty takes effect", "statement": "When [[DefineOwnProperty]] reports success, [[GetOwnProperty]] returns a descriptor with exactly the requested fields, the previous value of every field that was not requested, or the default when there was no property (or the kind changed), and no other property changes; when it reports failure nothing changes.", "quantifier": "every object, key and partial descriptor", "why_tests_cant": "the case analysis has thousands of combinations of present fields and current attributes", "anchors": ["vm-js/src/object_ops.rs: validate_and_apply_property_descriptor, apply_descriptor_patch, complete_property_descriptor"]}
{"id": "C10", "title": "Array length invariant", "statement": "For every array object at every moment, length is greater than every array-index property present; shrinking length deletes exactly the deletable tail down to the first non-configurable element; defining an index at or beyond length extends length to index+1 (or fails when length is read-only).", "quantifier": "every history of array [[DefineOwnProperty]]/[[Delete]] calls", "why_tests_cant": "needs arbitrary sequences of definitions, deletions and length writes", "anchors": ["vm-js/src/object_ops.rs: array_define_own_property, array_set_length", "vm-js/src/heap.rs: define_property, array length slot"]}
{"id": "C11", "title": "Own property key order", "statement": "[[OwnPropertyKeys]] returns every own key exactly once: array indices in ascending numeric order, then other strings in insertion order, then symbols in insertion order.", "quantifier": "every property table", "why_tests_cant": "ordering depends on the whole insertion history", "anchors": ["vm-js/src/heap.rs: own_property_keys, ordinary_own_property_keys"]}
{"id": "C12", "title": "Array-index recognition is exact", "statement": "A string is treated as an array index iff it is the canonical decimal form of an integer below 2^32-1, and the index is that integer; the keys produced by webidl index_to_property_key are recognised as the same index.", "quantifier": "every string of UTF-16 code units; every u32", "why_tests_cant": "the input space is infinite", "anchors": ["vm-js/src/heap.rs: string_to_array_index", "webidl/src/to_js.rs: index_to_property_key"]}
{"id": "C13", "title": "Prototype chains stay acyclic and lookups terminate with the nearest property", "statement": "No sequence of prototype assignments creates a prototype cycle, so property lookup terminates and returns the own property of the nearest object on the chain that has it.", "quantifier": "every history of object creation and prototype assignment, every key", "why_tests_cant": "cycles need particular sequences of assignments over unboundedly many objects", "anchors": ["vm-js/src/heap.rs: object_set_prototype, get_property_from_prototype, MAX_PROTOTYPE_CHAIN"]}
{"id": "C14", "title": "Environment bindings", "statement": "A declarative environment never has two bindings for a name; reading before initialisation throws; initialisation happens at most once; assignment to an immutable binding throws and changes nothing; otherwise a read returns the last value written, regardless of what happens to other names.", "quantifier": "every history of create/initialise/assign/read operations over arbitrary names", "why_tests_cant": "the binding table is kept sorted with binary search: behaviour depends on the history of names", "anchors": ["vm-js/src/heap.rs: env_add_binding, env_initialize_binding, env_set_mutable_binding, env_get_binding_value", "vm-js/src/env.rs"]}
{"id": "C15", "title": "Symbol.for registry", "statement": "Symbol.for(k) returns the same symbol for equal strings and different symbols for different strings, for any history of calls and collections, and registered symbols are never collected.", "quantifier": "every history of Symbol.for calls", "why_tests_cant": "the registry is a sorted vector with hand-written binary search", "anchors": ["vm-js/src/heap.rs: symbol_for, symbol_registry, cmp_utf16_code_units / binary search"]}
{"id": "C16", "title": "Microtask checkpoint runs every job once, in order", "statement": "A microtask checkpoint runs all queued jobs, including those enqueued by running jobs, exactly once each and in FIFO order until the queue is empty, even when jobs fail; a nested checkpoint is a no-op.", "quantifier": "every queue content and every (finite) enqueue behaviour of jobs", "why_tests_cant": "jobs may enqueue arbitrarily many further jobs; order violations need particular interleavings", "anchors": ["vm-js/src/microtasks.rs: MicrotaskQueue::perform_microtask_checkpoint", "vm-js/src/vm.rs: perform_microtask_checkpoint", "vm-js/src/job_queue.rs"]}
{"id": "C17", "title": "Jobs release their roots", "statement": "However a job ends (run successfully, run with error, discarded by teardown), every persistent root it owned is removed and no other root is touched.", "quantifier": "every job, every root table, every outcome", "why_tests_cant": "leaks only show on particular error paths", "anchors": ["vm-js/src/jobs.rs: Job::run, Job::discard, add_root", "vm-js/src/microtasks.rs: teardown"]}
{"id": "C18", "title": "A promise settles once and delivers each reaction once", "statement": "A promise that has been settled never changes state or result, each registered reaction is delivered exactly once (at settlement if registered before, immediately otherwise), in registration order.", "quantifier": "every history of resolve/reject/then calls", "why_tests_cant": "depends on arbitrary interleavings of settlement and registration", "anchors": ["vm-js/src/promise.rs: Promise", "vm-js/src/heap.rs: promise_settle_and_take_reactions, promise_append_reaction"]}
{"id": "C19", "title": "Settling an already settled heap promise has no effect", "statement": "Heap::promise_fulfill / promise_reject, documented as settling a pending promise, leave a settled promise unchanged.", "quantifier": "every promise state and value", "why_tests_cant": "a second settle call is needed", "anchors": ["vm-js/src/heap.rs: promise_fulfill, promise_reject, promise_set_state_and_result"]}
{"id": "C20", "title": "Unhandled-rejection tracking", "statement": "Draining the tracker reports exactly the promises rejected without a handler that have not been handled since, in rejection order; a promise handled after being reported is reported as handled exactly once; every root taken for a pending report is released.", "quantifier": "every history of reject/handle/drain/dispatch/teardown events over unboundedly many promises", "why_tests_cant": "interleavings of late handlers and drains are unbounded", "anchors": ["vm-js/src/promise_rejection_tracker.rs"]}
{"id": "C21", "title": "ResolveExport agrees with ECMA-262 on every module graph", "statement": "Resolving an export terminates on every (possibly cyclic) module graph and returns the binding the specification's recursive algorithm prescribes: not-found, ambiguous, or the unique (module, binding).", "quantifier": "every finite module graph with arbitrary local, indirect and star exports; every module and name", "why_tests_cant": "cyclic re-exports of arbitrary depth", "anchors": ["vm-js/src/module_record.rs: resolve_export_with_set", "vm-js/src/module_graph.rs"]}
{"id": "C22", "title": "GetExportedNames", "statement": "GetExportedNames terminates on every module graph, lists each name at most once, and a non-default name is listed iff some module reachable through star exports declares it (default only if declared by the module itself).", "quantifier": "every finite module graph", "why_tests_cant": "cyclic star exports", "anchors": ["vm-js/src/module_record.rs: get_exported_names_with_star_set"]}
{"id": "C23", "title": "Module request equality is an equivalence", "statement": "Two module requests are treated as the same request iff they have the same specifier and the same set of attributes; this is reflexive, symmetric and transitive and independent of the order attributes were written in.", "quantifier": "every pair/triple of requests", "why_tests_cant": "attribute lists are unbounded; asymmetry needs duplicate attributes", "anchors": ["vm-js/src/module_request.rs: module_requests_equal, ModuleRequest::new, cmp_utf16"]}
{"id": "C24", "title": "Module graph loading settles exactly once", "statement": "LoadRequestedModules settles its promise exactly once for any order of host completions, synchronous or asynchronous, success or failure: it fulfils only when every request of every reachable module has been loaded, and rejects with the first failure; later completions are ignored.", "quantifier": "every module graph, every host schedule of completions (re-entrant or deferred)", "why_tests_cant": "the number of schedules is exponential and unbounded", "anchors": ["vm-js/src/module_loading.rs: load_requested_modules, inner_module_loading, continue_module_loading, finish_loading_imported_module"]}
{"id": "C25", "title": "BigInt arithmetic is exact", "statement": "BigInt add, subtract-by-negation, multiply and negate return the mathematically exact integer, or report overflow exactly when the magnitude does not fit 128 bits; zero has a single representation.", "quantifier": "all integers of magnitude below 2^128", "why_tests_cant": "the domain has 2^257 pairs", "anchors": ["vm-js/src/value.rs: JsBigInt"]}
{"id": "C26", "title": "Loose equality follows IsLooselyEqual", "statement": "Loose equality is symmetric and agrees with ECMA-262 IsLooselyEqual on primitive values.", "quantifier": "every pair of primitive values", "why_tests_cant": "the domain is infinite, and BigInt/Number mixes are rarely tested", "anchors": ["vm-js/src/ops.rs: abstract_equality"]}
{"id": "C27", "title": "Fuel budgets bound execution", "statement": "With a fuel budget of n, exactly n ticks succeed and every later tick terminates with OutOfFuel; a pushed budget is always restored when its guard is dropped; an interrupt stops the next tick.", "quantifier": "every budget, every tick/push/pop/interrupt sequence", "why_tests_cant": "histories are unbounded", "anchors": ["vm-js/src/vm.rs: tick, set_budget, push_budget"]}
{"id": "C28", "title": "CFG edges stay symmetric", "statement": "After any sequence of graph operations, b is a child of a iff a is a parent of b, and edges only mention existing nodes.", "quantifier": "every history of connect/disconnect/contract/pop operations", "why_tests_cant": "the invariant ranges over all graphs and histories", "anchors": ["optimize-js/src/graph/mod.rs: Graph", "optimize-js/src/cfg/cfg.rs: CfgGraph"]}
{"id": "C29", "title": "Unreachable block removal is exact", "statement": "find_unreachable returns exactly the blocks no path from entry reaches, and removing them leaves the reachable subgraph unchanged.", "quantifier": "every CFG", "why_tests_cant": "arbitrary cyclic graphs", "anchors": ["optimize-js/src/cfg/cfg.rs: find_unreachable, find_and_pop_unreachable"]}
{"id": "C30", "title": "Dominator computation is correct", "statement": "The immediate-dominator computation returns, for each reachable block, its closest strict dominator (every path from entry to the block passes through it, and every other strict dominator dominates it).", "quantifier": "every CFG, including irreducible ones", "why_tests_cant": "paths are infinitely many", "anchors": ["optimize-js/src/dom/mod.rs: calculate_idom / intersect, dominance_frontiers"]}
{"id": "C31", "title": "Leaving SSA preserves meaning", "statement": "Replacing phi nodes by copies on the incoming edges assigns every phi target the value its source had on entry to the edge (phis read simultaneously).", "quantifier": "every block with any set of phi nodes, every variable valuation", "why_tests_cant": "the swap and lost-copy problems need phis that read each other", "anchors": ["optimize-js/src/ssa/ssa_deconstruct.rs: deconstruct_ssa"]}
{"id": "C32", "title": "Trivial dead code elimination preserves observable behaviour", "statement": "Removing assignments whose result is unused never changes the sequence of observable effects nor the values of used variables.", "quantifier": "every program in the IL, every environment", "why_tests_cant": "depends on data-flow across arbitrary CFGs", "anchors": ["optimize-js/src/opt/optpass_trivial_dce.rs"]}
{"id": "C33", "title": "Copy propagation preserves meaning", "statement": "Redundant-assignment elimination substitutes variables by what they were assigned, for every chain of copies, and never leaves a use of a variable whose definition was removed.", "quantifier": "every SSA program", "why_tests_cant": "chains of copies of arbitrary length and order", "anchors": ["optimize-js/src/opt/optpass_redundant_assigns.rs"]}
{"id": "C34", "title": "Constant branch removal respects truthiness", "statement": "A conditional jump on a constant is replaced by a jump to the side that JavaScript ToBoolean selects.", "quantifier": "every constant (string, number, bigint, boolean, null, undefined)", "why_tests_cant": "bigint and corner-case numbers are rarely exercised", "anchors": ["optimize-js/src/opt/optpass_impossible_branches.rs", "optimize-js/src/eval/consteval.rs: coerce_to_bool"]}
{"id": "C35", "title": "Register allocation never merges interfering variables", "statement": "Two variables that are simultaneously live are never assigned the same register.", "quantifier": "every interference graph; every program", "why_tests_cant": "depends on arbitrary interference graphs and CFGs", "anchors": ["optimize-js/src/analysis/registers.rs", "optimize-js/src/analysis/interference.rs", "optimize-js/src/analysis/liveness.rs"]}
{"id": "C36", "title": "Liveness is propagated across blocks", "statement": "The computed live-in sets contain every variable that may be read before being written on some path.", "quantifier": "every program", "why_tests_cant": "requires multi-block flows", "anchors": ["optimize-js/src/analysis/liveness.rs: calculate_live_ins", "optimize-js/src/analysis/dataflow.rs: run_dataflow"]}
{"id": "C37", "title": "Interning is injective and stable", "statement": "Interning equal values always yields the same id, different values always yield different ids (whatever the hash function and its collisions), lookup of an id returns the interned value, and ids never change.", "quantifier": "every hash function, every history of intern calls", "why_tests_cant": "collisions cannot be produced by tests with a 64/128-bit hash", "anchors": ["types-ts-interned/src/store.rs: insert_with_collision, NameInterner::intern"]}
{"id": "C38", "title": "Union types are canonical", "statement": "The union of a list of types does not depend on order or repetition of its members, is idempotent, contains never/any/unknown only in their absorbing roles, and denotes exactly the union of the members' values; and nesting unions does not matter.", "quantifier": "every list of member types", "why_tests_cant": "canonicality quantifies over all permutations and nestings", "anchors": ["types-ts-interned/src/store.rs: TypeStore::union"]}
{"id": "C39", "title": "Intersection types are canonical", "statement": "The intersection of a list of types does not depend on order or repetition, respects never/any/unknown, and reduces to never only when no value can inhabit all members.", "quantifier": "every list of member types", "why_tests_cant": "all permutations and nestings", "anchors": ["types-ts-interned/src/store.rs: TypeStore::intersection"]}
{"id": "C40", "title": "Span lookup returns the innermost span", "statement": "For every offset, the span index returns the span containing it with the smallest length (ties by start, id, end), or none when no span contains it.", "quantifier": "every multiset of spans (nested, overlapping, empty, duplicated) and every offset", "why_tests_cant": "sweep-line boundary conditions depend on arbitrary overlap patterns", "anchors": ["hir-js/src/span_map.rs: SpanIndex, build_segments, query_span"]}
{"id": "C41", "title": "Minifier renaming preserves variable binding", "statement": "After renaming, every identifier reference resolves from its scope to the renamed declaration of the symbol it resolved to before, unresolved (global) references stay unresolved, and exported/pinned names are kept.", "quantifier": "every scope tree, every set of symbols and references", "why_tests_cant": "capture needs particular nesting and name choices", "anchors": ["minify-js/src/rename/mod.rs: assign_names, collect_usages, NameGenerator"]}
{"id": "C42", "title": "Generated names are distinct valid identifiers", "statement": "The short-name generator never returns the same name twice, never a reserved or disallowed name, and always terminates.", "quantifier": "every counter value and every finite set of disallowed names", "why_tests_cant": "infinite name space", "anchors": ["minify-js/src/rename/mod.rs: NameGenerator::encode, next_name"]}
{"id": "C43", "title": "Source rewriting replaces exactly the requested ranges", "statement": "rewrite_source outputs the source with each replacement's range substituted and everything else byte-for-byte identical, for any set of non-overlapping replacements in any order.", "quantifier": "every source and every set of non-overlapping replacements", "why_tests_cant": "arbitrary range sets", "anchors": ["minify-js/src/rename/mod.rs: rewrite_source"]}
{"id": "C44", "title": "String literals round-trip", "statement": "The emitted string literal, read by the ECMAScript string-literal grammar, evaluates to the original string, contains no unescaped line terminator or closing quote, for every quote style and minify setting, and when minifying the automatic style never emits the longer of the two.", "quantifier": "every Unicode string", "why_tests_cant": "all escape adjacency combinations (e.g. NUL before digits)", "anchors": ["emit-js/src/escape.rs: emit_string_literal, escape_string_into"]}
{"id": "C45", "title": "Template literal segments round-trip", "statement": "An emitted template segment cooks back to the original text and never contains an unescaped backtick or `${`.", "quantifier": "every Unicode string", "why_tests_cant": "all adjacency combinations", "anchors": ["emit-js/src/escape.rs: emit_template_literal_segment, emit_template_raw_segment"]}
{"id": "C46", "title": "Line/column lookup", "statement": "For every text and offset, the reported line is the number of newlines before the offset plus one and the line bounds contain exactly that line's text.", "quantifier": "every text, every offset", "why_tests_cant": "boundary offsets in arbitrary texts", "anchors": ["diagnostics/src/render.rs: LineCache, line_and_column, clamp_offset_to_char_boundary"]}
{"id": "C47", "title": "Path normalisation", "statement": "Normalised paths contain no empty, `.` or `..` segments and no backslashes, never escape the root, and normalising twice gives the same result.", "quantifier": "every string", "why_tests_cant": "idempotence fails only for unusual segment shapes", "anchors": ["diagnostics/src/paths.rs: normalize_ts_path"]}
{"id": "C48", "title": "Diagnostic order is a total preorder and sorting is deterministic", "statement": "The diagnostic comparison is reflexive, transitive and antisymmetric up to reordering of labels/notes; sorting any permutation of a set of diagnostics gives the same sequence.", "quantifier": "every list of diagnostics and every permutation", "why_tests_cant": "all permutations", "anchors": ["diagnostics/src/lib.rs: diagnostic_cmp, sort_diagnostics"]}
{"id": "C49", "title": "Sharding partitions the tests", "statement": "For any list and any total, each item appears in exactly one shard and shards preserve order; a parsed shard always has index < total.", "quantifier": "every list, every total > 0", "why_tests_cant": "all list lengths and totals", "anchors": ["conformance-harness/src/shard.rs: Shard, apply_shard"]}
{"id": "C50", "title": "Expectation lookup precedence ignores entry order across kinds", "statement": "Lookup prefers exact id over glob over regex regardless of manifest order, the first match within a kind wins, and an unlisted test is expected to pass.", "quantifier": "every manifest and every test id", "why_tests_cant": "all manifests", "anchors": ["conformance-harness/src/expectations.rs: Expectations"]}
{"id": "C51", "title": "Emitted expressions re-parse to the same tree", "statement": "Printing an expression tree with parentheses inserted by precedence and associativity and parsing the output with the operator-precedence parser yields the same tree.", "quantifier": "every expression tree over the binary/unary/conditional operator table", "why_tests_cant": "tree depth and operator mixes are unbounded", "anchors": ["emit-js/src/precedence.rs: needs_parens, child_min_prec_for_binary", "parse-js/src/operator.rs: OPERATORS", "parse-js/src/parse/expr/mod.rs"]}
{"id": "C52", "title": "Timeouts cancel exactly the overdue registrations", "statement": "A registered token is cancelled at most once, never before its deadline and never after its guard was dropped; whenever the timeout thread wakes at or after the deadline of a live registration, the token is cancelled.", "quantifier": "every interleaving of register, drop and thread wake-ups and every clock", "why_tests_cant": "schedules are unbounded", "anchors": ["conformance-harness/src/timeout.rs: TimeoutManager, timeout_thread"]}
{"id": "C53", "title": "WebIDL overload resolution selects at most one overload and converts every argument", "statement": "When overload resolution succeeds the selected overload has the effective argument count, exactly one converted value per argument, and no argument's iterator method is fetched twice.", "quantifier": "every overload set and argument list", "why_tests_cant": "all overload sets", "anchors": ["webidl/src/overload.rs: resolve_overload"]}
{"id": "C54", "title": "Optimized number equality and hashing agree", "statement": "Constants that compare equal hash equally (so hash-map based value numbering is sound).", "quantifier": "every pair of numbers", "why_tests_cant": "signed zero / NaN corner cases", "anchors": ["parse-js/src/num.rs: JsNumber Eq/Hash"]}
{"id": "C55", "title": "No dangling references", "statement": "If every heap call is made on handles that are live at that moment, then at every moment every handle held by a root and every handle stored inside a live object is live, however many collections the calls trigger in between.", "quantifier": "every finite history of heap API calls with any limits and GC threshold", "why_tests_cant": "whether a collection falls between two steps of one call depends on capacities and thresholds; unit tests hit a few", "anchors": ["vm-js/src/heap.rs", "vm-js/src/function_properties.rs", "vm-js/src/object_ops.rs"]}
{"id": "C56", "title": "Heap calls never panic", "statement": "No heap API call panics, whatever handles, keys and descriptors it is given, including stale and ill-kinded handles.", "quantifier": "every reachable heap state and every call", "why_tests_cant": "index arithmetic over all slot tables and free lists", "anchors": ["vm-js/src/heap.rs"]}
{"id": "C57", "title": "Calls change only their targets", "statement": "A heap API call changes the contents of no object other than the one it is asked to write.", "quantifier": "every history of calls, every other live handle", "why_tests_cant": "aliasing through reused slots", "anchors": ["vm-js/src/heap.rs"]}
{"id": "C58", "title": "Resolving functions of a promise are live", "statement": "The pair of resolving functions created for a promise consists of two live function objects, whenever a collection happens during their creation.", "quantifier": "every heap state and collection threshold", "why_tests_cant": "a collection must fall between the two allocations", "anchors": ["vm-js/src/builtins.rs: create_promise_resolving_functions"]}
{"id": "C59", "title": "Module namespaces list exactly the unambiguous exports", "statement": "The export list of a module namespace contains a name exactly when resolving that name gives a unique binding, and is in strictly increasing UTF-16 order.", "quantifier": "every finite module graph", "why_tests_cant": "cyclic re-exports and ambiguous star exports of arbitrary shape", "anchors": ["vm-js/src/module_graph.rs: get_module_namespace, module_namespace_create"]}
{"id": "C60", "title": "Printing a parsed literal keeps its value", "statement": "Parsing a string or template literal and printing it again yields a literal with the same value.", "quantifier": "every string and template literal of the language", "why_tests_cant": "values include lone surrogates and every delimiter position", "anchors": ["parse-js/src/parse/expr/lit.rs: lit_str_val_with_mode_and_legacy_escape, lit_template_parts_with_invalid_escape", "emit-js/src/escape.rs: emit_string_literal, cooked_template_segment", "emit-js/src/expr_js.rs: emit_template_parts"]}
{"id": "C61", "title": "Literals are read with their ECMAScript value", "statement": "A string literal or template part is accepted with exactly the value the ECMAScript grammar gives it, in strict and sloppy mode, and the token ends at its closing delimiter.", "quantifier": "every source text", "why_tests_cant": "all combinations of escapes, continuations and digits", "anchors": ["parse-js/src/parse/expr/lit.rs: decode_literal_utf16, decode_escape_sequence_utf16, find_legacy_escape_sequence", "parse-js/src/lex/mod.rs: lex_string, lex_template_string_continue"]}
{"id": "C62", "title": "Printed calls, accesses, new, arrays and casts re-parse to the same tree", "statement": "Printing an expression with calls, member accesses, new, array literals, spread arguments and casts, with either printer (source-preserving or minifying), and parsing the output yields the same tree.", "quantifier": "every expression tree over these forms, of any depth", "why_tests_cant": "nesting of new, optional chains, commas and holes is unbounded", "anchors": ["emit-js/src/expr_js.rs: emit_call, emit_new_expr, emit_array_literal", "emit-js/src/hir.rs", "parse-js/src/parse/expr/mod.rs"]}
{"id": "C63", "title": "The expression parser answers on every token sequence", "statement": "Parsing an expression ends, with a tree or an error, on every token sequence.", "quantifier": "every token sequence, valid or not", "why_tests_cant": "hangs depend on token sequences nobody thought of writing down", "anchors": ["parse-js/src/parse/expr/mod.rs: expr_with_min_prec, expr_operand"]}
{"id": "C64", "title": "A WebIDL conversion yields a value of the requested type or a proper error", "statement": "When converting a JavaScript value to a WebIDL type succeeds, the result is a value of that type with every sequence within the configured limit; when it fails, the failure is the runtime's exception, a TypeError or the limit error, never a panic; and an iterator that never ends is cut off by the limit.", "quantifier": "every type, every value, every behaviour of the runtime's hooks", "why_tests_cant": "types nest without bound and the runtime's getters and iterators are arbitrary code", "anchors": ["webidl/src/convert.rs: convert_js_to_idl, convert_js_to_idl_with_hints", "webidl/src/types.rs"]}
{"id": "C65", "title": "WebIDL values convert back to JavaScript", "statement": "A value of a WebIDL type converts back to a JavaScript value unless the runtime itself throws.", "quantifier": "every type and every value of it", "why_tests_cant": "values and types nest without bound", "anchors": ["webidl/src/convert.rs: convert_idl_to_js"]}
{"id": "C66", "title": "[[Get]], [[HasProperty]] and [[Set]] do what ECMA-262 says", "statement": "Reading a property gives the value of the nearest property on the prototype chain or calls its getter on the receiver; setting it is refused, calls the setter, or defines the property on the receiver, exactly as OrdinaryGet, OrdinaryHasProperty and OrdinarySet prescribe; a value that was set without a setter is read back; no other object changes.", "quantifier": "every reachable heap, object, key, value and receiver, with prototype chains of up to 10000 objects, and every behaviour of getters and setters", "why_tests_cant": "chains, property kinds and receivers combine without bound, and collections may happen in between", "anchors": ["vm-js/src/object_ops.rs: ordinary_get, ordinary_set, ordinary_has_property", "vm-js/src/heap.rs: get_property"]}
{"id": "C67", "title": "Operators bind as the ECMAScript grammar says", "statement": "Every expression of the ECMAScript grammar is accepted to its end and read as the tree the grammar gives it: precedence, associativity, conditional, assignment, yield, new and optional-chain forms; and nothing outside the grammar is accepted.", "quantifier": "every token sequence, of any length and nesting", "why_tests_cant": "operators combine without bound, and a wrong level in the precedence table shows only on particular combinations", "anchors": ["parse-js/src/parse/expr/mod.rs: expr_with_min_prec, expr_operand, expr_with_min_prec_after_left", "parse-js/src/operator.rs: OPERATORS", "parse-js/src/parse/operator.rs", "parse-js/src/parse/expr/util.rs: lhs_expr_to_assign_target_with_recover"]}
{"id": "C68", "title": "Statements complete as ECMA-262 prescribes", "statement": "Running a statement ends with the completion the standard prescribes: the same kind, target label, thrown or returned value and completion value, after the same effects in the same order; finally blocks always run and override only when they end abruptly; labels, switch fall-through and loops transfer control as prescribed; and the scope current before a statement is current after it, however it ends.", "quantifier": "every statement of any nesting, every behaviour of the expressions, iterators and bindings in it, and every number of loop rounds", "why_tests_cant": "control transfers nest without bound: a wrong interplay of finally, labels and loops shows only on particular nestings", "anchors": ["vm-js/src/exec.rs: eval_stmt, eval_stmt_list, eval_block_stmt, eval_try, eval_catch, eval_while, eval_do_while, eval_for_triple, eval_for_of, eval_switch, eval_label, run_ecma_function"]}
{"id": "C69", "title": "Minifying statements does not change what a function does", "statement": "After the minifier has removed constant branches, unreachable and empty statements, turned ifs into expressions and merged declarations, any number of times, a call of the function gives the same value or throws the same value after the same effects, declares the same names and directives, and uses labels as allowed.", "quantifier": "every function body of any nesting, every order and number of passes, every binder answer, and every behaviour of the expressions, bindings and iterators in it", "why_tests_cant": "control flow nests without bound, and a wrongly removed statement, name or label shows only in particular nestings", "anchors": ["minify-js/src/opt/stmt_rewrite.rs: rewrite_stmt, const_truthiness, collect_var_names", "minify-js/src/opt/cf_rewrite.rs: drop_terminating_else, trim_unreachable_after_terminator", "minify-js/src/opt/cleanup.rs: clean_stmts", "minify-js/src/opt/decl_combine.rs: combine_stmts"]}
{"id": "C70", "title": "Printed expressions are ECMAScript expressions with the same tree and value", "statement": "The text either printer writes for an expression is an expression of the ECMAScript grammar whose tree is the printed tree, so any conforming engine reads what was printed; and it evaluates as the source did.", "quantifier": "every expression tree of any depth, both printers", "why_tests_cant": "missing parentheses show only on particular combinations of operators, and re-parsing with the project's own more permissive parser does not reveal them", "anchors": ["emit-js/src/expr_js.rs: emit_expr_with_min_prec, emit_binary, emit_member, emit_new_expr", "emit-js/src/hir.rs: emit_expr_with_min_prec", "emit-js/src/precedence.rs"]}
{"id": "C71", "title": "Programs are read as the ECMAScript statement grammar says", "statement": "Parsing ends on every token sequence; every program of the ECMAScript statement grammar, with semicolons left out where the standard inserts them, is accepted and read as the tree the grammar gives it (which is unique); and nothing outside the grammar is accepted.", "quantifier": "every token sequence on one line, of any length and nesting", "why_tests_cant": "else, semicolon insertion, labels and for headers interact over unbounded nesting; a misplaced token shows only in particular neighbourhoods", "anchors": ["parse-js/src/parse/stmt/mod.rs: stmt, stmts, break_or_continue_label, expr_stmt, for_stmt, for_in_of_lhs, switch_stmt, try_stmt, do_while_stmt", "parse-js/src/parse/stmt/decl.rs: var_decl_mode", "parse-js/src/parse/func.rs: func_params"]}
{"id": "C72", "title": "Printed programs are ECMAScript programs with the same tree", "statement": "The text either printer writes for a program is a program of the ECMAScript statement grammar, with the tree that was printed up to empty statements, and the parser reads it back as that tree.", "quantifier": "every program of any depth, both printers", "why_tests_cant": "which braces, semicolons and parentheses can be left out depends on arbitrarily distant context (dangling else, for headers), and the project's own parser accepts more than engines do", "anchors": ["emit-js/src/stmt.rs: emit_stmt, emit_stmt_as_body, emit_for_body, emit_var_declarator, emit_stmt_list", "emit-js/src/hir.rs: emit_stmt, emit_stmt_as_body, emit_var_decl"]}
{"id": "C73", "title": "Type relations are answered as the assignability rules say", "statement": "Asking whether a type may be used as another, whether two types are comparable, or whether one is a strict subtype of another is answered yes exactly when the rules of assignability relate them, taking recursive types as the largest relation that follows the rules: a type that fits is never rejected, and a type that does not fit is never accepted.", "quantifier": "every store of types, finite or recursive, of any nesting, every option, cache size and limit, and every history of questions", "why_tests_cant": "types nest without bound, and a wrong variance, optional or index-signature case shows only on particular combinations", "anchors": ["types-ts-interned/src/relate.rs: RelateCtx::is_assignable, is_comparable, is_strict_subtype, relate_internal, assignable, assignable_special, relate_object, relate_signature, relate_tuple"]}
{"id": "C74", "title": "An answer about types does not depend on what was asked before", "statement": "The same question has the same answer whatever questions were put to the context before and whatever its cache forgot; a type is always assignable and comparable to itself and never its own strict subtype; any and unknown take every type, never and any go everywhere; comparability does not depend on the order and strict subtypes are not mutual.", "quantifier": "every store, every history of questions, every cache behaviour", "why_tests_cant": "wrong answers left in a cache show only after particular sequences of questions", "anchors": ["types-ts-interned/src/relate.rs: relate_internal, RelateCtx", "types-ts-interned/src/cache.rs: ShardedCache"]}
{"id": "C75", "title": "Strings are read as numbers as ECMAScript says", "statement": "Converting a string to a number, when folding constants or at run time, gives the value of the numeric literal it holds between white space, zero for a blank string and NaN for every other string; converting it to a BigInt gives the integer it holds, and nothing for other strings.", "quantifier": "every string", "why_tests_cant": "the grammar of numeric strings has infinitely many members and non-members, and Rust's own number syntax differs from it in words, signs and separators", "anchors": ["minify-js/src/opt/const_fold.rs: coerce_str_to_num, parse_int_digits_to_f64", "optimize-js/src/eval/consteval.rs: coerce_str_to_num, parse_bigint", "vm-js/src/ops.rs: string_to_number, parse_ascii_int_radix"]}
{"id": "C76", "title": "Numbers are spelled and cut to 32 bits as ECMAScript says", "statement": "The text of a number, when folding constants or at run time, is the one Number::toString prescribes, for every double; and folding bitwise operators takes operands modulo 2^32 as ToInt32 and ToUint32 prescribe.", "quantifier": "every double", "why_tests_cant": "2^64 doubles, with layouts that depend on the exponent and the number of digits", "anchors": ["minify-js/src/opt/const_fold.rs: js_number_to_string, parse_ryu_to_decimal, js_to_uint32, js_to_int32", "vm-js/src/property.rs: number_to_string, parse_ryu_to_decimal", "parse-js/src/num.rs: JsNumber Display", "optimize-js/src/eval/consteval.rs: js_to_uint32"]}
{"id": "C77", "title": "Folding constants does not change what an expression does", "statement": "After the minifier has folded the constants in an expression, evaluating it gives the same value or throws the same value, after the same effects in the same order, in every world; where only the truth of an expression matters, its truth is kept.", "quantifier": "every expression of any depth, every world and every behaviour of variables, properties, calls and conversions", "why_tests_cant": "operators, literals and positions combine without bound; a wrong fold shows only for particular operands or in particular places", "anchors": ["minify-js/src/opt/const_fold.rs: fold_expr, fold_binary, const_value, const_truthiness, js_loose_eq, js_strict_eq, const_to_number, const_to_string, js_str_cmp"]}
{"id": "C78", "title": "Expressions that are dropped have no side effects", "statement": "An expression the minifier takes for free of side effects ends normally wherever it is evaluated, and afterwards nothing but newly made objects tells that it was: no program code runs, nothing is thrown, nothing existing changes.", "quantifier": "every expression of any depth, every world and every behaviour of the program around it", "why_tests_cant": "the judgement is recursive and rests on which operands may be BigInts; a missed throw or conversion shows only on particular operand types", "anchors": ["minify-js/src/opt/side_effects.rs: is_side_effect_free_expr, expr_bigint_kind, expr_bigint_sign, expr_definitely_string"]}
{"id": "C79", "title": "Instructions on constants are replaced by what ECMAScript gives", "statement": "When the optimizer evaluates an operator on constants, the constant it puts in its place is what the operator gives in every conforming engine; it replaces calls of Math functions and Number, and the named constants of Math and Number, by their values; and it never fails on a program.", "quantifier": "every operator, every pair of constants, every double and every string", "why_tests_cant": "2^64 doubles and unboundedly many strings and BigInts, over all pairs of types and operators; rounding, signed zeros, code unit order and mixed BigInt comparisons go wrong only on particular values", "anchors": ["optimize-js/src/eval/consteval.rs: maybe_eval_const_bin_expr, maybe_eval_const_un_expr, maybe_eval_const_builtin_call, maybe_eval_const_builtin_val, js_cmp, js_loose_eq, js_strict_eq, coerce_to_num, coerce_to_bool"]}
{"id": "C80", "title": "Value numbering keeps what programs do", "statement": "Merging repeated computations, propagating copies and constants, and evaluating operators and builtin calls on constants changes no variable, effect or control flow of any execution of a program in SSA form; the result is again in SSA form, and the pass ends without failing.", "quantifier": "every control flow graph in SSA form, every machine, every initial state and every number of steps", "why_tests_cant": "Programs have unboundedly many shapes, loops and join points, and a merge is wrong only on particular paths; a test sees a few of them.", "anchors": ["optimize-js/src/opt/optpass_dvn.rs: optpass_dvn, inner, canonicalize_phi_args_for_child, State, is_valid_member_ident"]}
{"id": "C81", "title": "Pruning the control flow graph keeps what programs do", "statement": "Merging blocks control falls straight through, removing empty blocks and merging empty exits changes nothing a program does: the same effects happen in the same order and it ends, or not, as before; and the pass never fails on a program in SSA form.", "quantifier": "every control flow graph in SSA form, every machine and every execution", "why_tests_cant": "Which blocks are removed depends on the whole graph and on the order they are visited in; the value a phi takes is wrong only for particular shapes and paths.", "anchors": ["optimize-js/src/opt/optpass_cfg_prune.rs: optpass_cfg_prune, can_prune_bblock, maybe_reroot_entry", "optimize-js/src/il/inst.rs: remove_phi, insert_phi"]}
{"id": "C82", "title": "The passes of an optimizer round compose", "statement": "Running value numbering, dead code elimination, removal of copies and removal of impossible branches one after the other, as the optimizer does, changes nothing a program does, and leaves a program the next round can be run on; what one pass relies on (no copies of copies, complete phis) the ones before it provide.", "quantifier": "every program in SSA form, every machine, every initial state and every number of steps", "why_tests_cant": "Each pass is right only on what the previous one leaves; a test of a pass alone does not see an assumption the pipeline breaks, and a test of the pipeline sees a few programs.", "anchors": ["optimize-js/src/lib.rs: the optimisation loop", "optimize-js/src/opt/optpass_dvn.rs", "optimize-js/src/opt/optpass_trivial_dce.rs", "optimize-js/src/opt/optpass_redundant_assigns.rs", "optimize-js/src/opt/optpass_impossible_branches.rs"]}
{"id": "C83", "title": "Building SSA form keeps what programs do", "statement": "Putting a function into SSA form - placing phis, giving every write a new name and every read the name that reaches it - changes nothing the function does: the same blocks run in the same order with the same effects, whatever its branches and calls give.", "quantifier": "every function before optimisation, every machine, every initial state and every number of steps", "why_tests_cant": "A missing phi or a wrong name shows only on the one path through a graph that needs it, with values that differ there; graphs and paths are unbounded, and tests fix a few.", "anchors": ["optimize-js/src/ssa/ssa_insert_phis.rs: insert_phis_for_ssa_construction", "optimize-js/src/ssa/ssa_rename.rs: rename_targets_for_ssa_construction", "optimize-js/src/analysis/defs.rs: calculate_defs", "optimize-js/src/lib.rs: build_program_function"]}
{"id": "C84", "title": "Loop discovery finds exactly the natural loops", "statement": "Looking for loops ends on every control flow graph, reducible or not. It reports a loop for exactly the blocks some jump goes back to, and its blocks are that header and the reachable blocks with a way to such a jump that does not go through the header; every block of a loop is dominated by its header, so the loop is entered only there.", "quantifier": "every control flow graph", "why_tests_cant": "graphs are unbounded: nested loops, shared headers, irreducible parts and unreachable blocks in any combination", "anchors": ["optimize-js/src/analysis/find_loops.rs: find_loops"]}
{"id": "C85", "title": "Loops nest", "statement": "Two loops of a control flow graph that share a block are one strictly inside the other, so no pair of loops is ever reported as overlapping; and the parent of a loop is the innermost loop around it, present exactly when there is a loop around it. A loop's latches are the blocks that jump back to its header, and its exits are the edges that leave it.", "quantifier": "every control flow graph and every pair of its loops", "why_tests_cant": "graphs are unbounded, and irreducible parts could make loops overlap", "anchors": ["optimize-js/src/analysis/loop_info.rs: LoopInfo::compute, from_loops_map"]}
