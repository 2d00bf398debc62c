{
 "claims": [
  {
   "property": "C01",
   "status": "proved",
   "theorems": [
    "gc_preserves_reachable"
   ],
   "note": "every state reachable by heap API calls, any extra roots"
  },
  {
   "property": "C02",
   "status": "proved",
   "theorems": [
    "gc_frees_unreachable"
   ],
   "note": ""
  },
  {
   "property": "C03",
   "status": "proved",
   "theorems": [
    "allocation_is_fresh"
   ],
   "note": "all 13 allocating calls; for the three native/ecma/user function allocators the contents claim is only that the handle denotes a function"
  },
  {
   "property": "C04",
   "status": "partial",
   "theorems": [
    "stale_handle_stays_stale",
    "handle_keeps_kind",
    "stale_handle_forever_refuted"
   ],
   "note": "true for fewer than 2^32 collections; refuted beyond (u32 generation wraps)"
  },
  {
   "property": "C05",
   "status": "proved",
   "theorems": [
    "bytes_exact_and_bounded",
    "failed_call_keeps_others"
   ],
   "note": "try_reserve_exact is modelled as giving exactly the requested capacity"
  },
  {
   "property": "C06",
   "status": "partial",
   "theorems": [
    "add_root_registers",
    "root_until_changed",
    "env_root_until_changed",
    "root_set_and_remove",
    "rooted_stays_live",
    "removed_root_id_reused_refuted"
   ],
   "note": "the last clause (a removed id never denotes another root) is false: ids are reused"
  },
  {
   "property": "C07",
   "status": "proved",
   "theorems": [
    "scope_restores_stack",
    "stack_roots_persist"
   ],
   "note": ""
  },
  {
   "property": "C08",
   "status": "partial",
   "theorems": [
    "essential_invariants",
    "delete_own_property_spec",
    "essential_invariants_raw_refuted"
   ],
   "note": "holds over every history in which the object is written only through its internal methods; the heap's raw entry points (Scope::define_property, Heap::object_delete_own_property, object_set_existing_data_property_value), which are public, ignore the invariants (refuted)"
  },
  {
   "property": "C09",
   "status": "proved",
   "theorems": [
    "define_own_property_spec",
    "define_then_get_own_property",
    "delete_own_property_spec"
   ],
   "note": "ordinary objects and arrays; a shrink of an array that meets a non-configurable element reports failure and keeps the deletions made, as ECMA-262 requires"
  },
  {
   "property": "C10",
   "status": "partial",
   "theorems": [
    "new_array_bounded",
    "array_length_bounds_indices",
    "array_index_extends_length",
    "array_shrink_deletes_tail",
    "define_own_property_spec",
    "array_length_oom_refuted",
    "array_length_raw_refuted"
   ],
   "note": "holds while no call runs out of memory and the array is written through its internal methods; false otherwise (refuted)"
  },
  {
   "property": "C11",
   "status": "partial",
   "theorems": [
    "own_keys_in_order",
    "own_keys_distinct",
    "own_keys_distinct_new",
    "own_keys_distinct_raw_refuted"
   ],
   "note": "order and completeness for every object; distinctness for every object made with distinct keys, over every history of internal methods; false for alloc_object_with_properties given a table with a repeated key"
  },
  {
   "property": "C12",
   "status": "proved",
   "theorems": [
    "array_index_exact",
    "decimal_units_injective",
    "index_key_round_trip"
   ],
   "note": ""
  },
  {
   "property": "C13",
   "status": "proved",
   "theorems": [
    "prototype_chains_finite",
    "set_prototype_spec",
    "get_property_nearest",
    "get_property_total"
   ],
   "note": "Acyclicity is an invariant of every disciplined history with fewer than 2^32 collections (generation wrap, C04); set_prototype and lookups are exact, including the 10000-object limit. The theorems about one call assume prototype handles denote objects (GcObject typing). The unsafe object_set_prototype_unchecked is excluded."
  },
  {
   "property": "C14",
   "status": "partial",
   "theorems": [
    "scope_is_a_map",
    "scope_calls_exact",
    "scope_declare_exact",
    "read_after_assign",
    "read_after_initialize",
    "initialize_once",
    "read_before_initialize",
    "assign_constant",
    "constant_value",
    "declare_once",
    "bindings_sorted",
    "search_unique",
    "declared_twice_refuted"
   ],
   "note": "everything holds for scopes made by env_create over every history; a record allocated with the caller's own list of bindings (alloc_declarative_env_record) may hold two bindings of one name (refuted)"
  },
  {
   "property": "C15",
   "status": "proved",
   "theorems": [
    "symbol_for_same",
    "symbol_for_different",
    "symbol_for_survives",
    "new_symbol_not_registered"
   ],
   "note": "Any disciplined history of the heap's public operations between the two calls, including collections and other Symbol.for calls; fewer than 2^32 collections."
  },
  {
   "property": "C16",
   "status": "partial",
   "theorems": [
    "checkpoint_runs_all_fifo",
    "checkpoint_prefix_fifo",
    "nested_checkpoint_noop",
    "checkpoint_terminates",
    "checkpoint_fuel_irrelevant",
    "vm_checkpoint_runs_all_fifo",
    "vm_checkpoint_fifo_refuted",
    "vm_call_keeps_jobs_refuted",
    "checkpoint_after_panic_refuted"
   ],
   "note": "the queue's own checkpoint is proved; Vm's host-less calls and panicking jobs break it (refuted)"
  },
  {
   "property": "C17",
   "status": "proved",
   "theorems": [
    "job_run_releases_roots",
    "job_discard_releases_roots",
    "teardown_releases_roots",
    "new_reaction_job_roots",
    "new_thenable_job_roots",
    "queued_reaction_roots_values"
   ],
   "note": ""
  },
  {
   "property": "C18",
   "status": "proved",
   "theorems": [
    "reactions_delivered_once_in_order",
    "settled_forever",
    "first_settlement_wins",
    "rejection_tracked_once",
    "record_reactions_once_in_order",
    "record_fulfilled_reactions",
    "record_settled_forever",
    "record_rejection_tracked_once"
   ],
   "note": "exactly once when no call fails; at most once and in order otherwise"
  },
  {
   "property": "C19",
   "status": "partial",
   "theorems": [
    "settling_settled_promise_noop_refuted",
    "settled_forever"
   ],
   "note": "false of Heap::promise_fulfill/promise_reject (refuted); true of the promise operations built on promise_settle_and_take_reactions"
  },
  {
   "property": "C20",
   "status": "proved",
   "theorems": [
    "drain_reports_unhandled",
    "handled_announced_at_most_once",
    "handled_after_report_announced",
    "waiting_promises_rooted",
    "tracker_releases_roots"
   ],
   "note": ""
  },
  {
   "property": "C21",
   "status": "proved",
   "theorems": [
    "resolve_export_answers",
    "resolve_export_unique",
    "resolve_export_missing",
    "resolve_export_ambiguous"
   ],
   "note": ""
  },
  {
   "property": "C22",
   "status": "partial",
   "theorems": [
    "exported_names_complete",
    "exported_names_once_partial",
    "exported_names_once_refuted"
   ],
   "note": "each name once only if the module itself declares no name twice, which the VM does not check (refuted otherwise)"
  },
  {
   "property": "C23",
   "status": "partial",
   "theorems": [
    "request_new_order_irrelevant",
    "with_import_attribute_adds",
    "requests_equal_exact",
    "requests_equal_reflexive",
    "requests_equal_transitive",
    "requests_equal_symmetric_partial",
    "requests_equal_symmetric_refuted"
   ],
   "note": "symmetry needs attribute lists without repetitions (refuted otherwise)"
  },
  {
   "property": "C24",
   "status": "proved",
   "theorems": [
    "load_settles_at_most_once",
    "load_settles_exactly_once",
    "fulfilled_load_is_complete",
    "first_failure_rejects",
    "rejection_has_cause",
    "late_completions_ignored",
    "load_engine_terminates",
    "load_with_failing_hook_settles_refuted"
   ],
   "note": "for hosts whose hook does not return an error; with such a hook the promise is never settled (refuted)"
  },
  {
   "property": "C25",
   "status": "proved",
   "theorems": [
    "bigint_exact",
    "bigint_one_representation",
    "bigint_observed"
   ],
   "note": ""
  },
  {
   "property": "C26",
   "status": "partial",
   "theorems": [
    "strict_equality_spec",
    "loose_equality_total_symmetric",
    "loose_equality_spec_partial",
    "loose_equality_spec_refuted"
   ],
   "note": "false of the code for BigInt against Number, String or Boolean (always false); everything else proved, with StringToNumber a parameter"
  },
  {
   "property": "C27",
   "status": "proved",
   "theorems": [
    "fuel_exact",
    "no_fuel_limit",
    "budget_restored",
    "interrupt_stops",
    "no_spurious_stop",
    "deadline_noticed"
   ],
   "note": "clock readings are inputs"
  },
  {
   "property": "C28",
   "status": "proved",
   "theorems": [
    "graph_symmetric",
    "connect_adds_edge",
    "connect_adds_nodes",
    "disconnect_removes_edge",
    "pop_removes_node",
    "contract_bypasses_node",
    "cfg_graphs_are_built"
   ],
   "note": "with the exact condition under which each call panics"
  },
  {
   "property": "C29",
   "status": "partial",
   "theorems": [
    "find_unreachable_exact",
    "pop_unreachable_exact_partial",
    "all_unreachable_blocks_removed_refuted"
   ],
   "note": "blocks that have no edge at all are in no graph node and are never removed (refuted)"
  },
  {
   "property": "C30",
   "status": "partial",
   "theorems": [
    "idom_exact",
    "idom_exists",
    "postorder_exact",
    "dominated_by_exact",
    "dominates_graph_exact",
    "dominator_children_exact",
    "lca_exact",
    "lca_all_exact",
    "postdom_exact",
    "frontiers_exact_partial",
    "frontiers_entry_refuted",
    "frontiers_unreachable_parent_refuted"
   ],
   "note": "immediate dominators, dominator sets, tree children, common dominators and post-dominators are exact for every graph; frontiers are exact except that the entry is never in one (refuted), and need unreachable predecessors to be gone (refuted otherwise). Not modelled: choosing the virtual exit (Tarjan)"
  },
  {
   "property": "C31",
   "status": "partial",
   "theorems": [
    "phi_copies_partial",
    "leaving_ssa_preserves_refuted"
   ],
   "note": "proved per edge: the copies placed on an edge do what the phis do when no phi reads the target of an earlier phi of its block; refuted in general: two phis that exchange their values are copied one after the other"
  },
  {
   "property": "C32",
   "status": "proved",
   "theorems": [
    "dce_preserves_behaviour"
   ],
   "note": "every program, environment and machine; loads and property reads count as pure, as the IL requires"
  },
  {
   "property": "C33",
   "status": "partial",
   "theorems": [
    "copies_preserved_partial",
    "copy_chains_preserved_refuted"
   ],
   "note": "proved when no copy is of a copy; with a chain the pass leaves a use of a removed variable (refuted). Value numbering, which runs before it, leaves no chains (value_numbering_flattens_copies, C80)"
  },
  {
   "property": "C34",
   "status": "partial",
   "theorems": [
    "branch_truthiness_partial",
    "bigint_truthiness_refuted",
    "branches_preserved_partial",
    "bigint_branch_preserved_refuted"
   ],
   "note": "proved for the whole pass on programs that do not branch on a bigint constant; bigint constants take the wrong branch (refuted)"
  },
  {
   "property": "C35",
   "status": "partial",
   "theorems": [
    "interference_is_live_together",
    "allocation_is_proper",
    "registers_respect_live_sets",
    "registers_respect_liveness_refuted"
   ],
   "note": "proved for every interference graph and for every family of live sets; refuted with the live sets the code computes, because liveness does not cross blocks"
  },
  {
   "property": "C36",
   "status": "partial",
   "theorems": [
    "live_ins_sound",
    "live_ins_exact_partial",
    "backward_analysis_propagates_refuted",
    "live_ins_complete_refuted"
   ],
   "note": "what is reported is live, and is exactly the liveness within the block; liveness across blocks is missing (refuted, with the cause proved for every backward analysis)"
  },
  {
   "property": "C37",
   "status": "proved",
   "theorems": [
    "interning_injective",
    "interning_stable",
    "interning_returns",
    "names_injective",
    "snapshot_round_trip"
   ],
   "note": "ids are handed out by any interleaving of threads; hash collisions of the fingerprint are modelled by probing with the next salt."
  },
  {
   "property": "C38",
   "status": "partial",
   "theorems": [
    "type_order_total",
    "union_order_free",
    "union_idempotent",
    "union_special",
    "union_values",
    "union_nesting_partial",
    "union_nesting_refuted"
   ],
   "note": "everything holds for every union of types from the store except that nesting matters when the inner union has both Boolean literals: it becomes boolean (union_nesting_refuted gives true | false | \"x\")."
  },
  {
   "property": "C39",
   "status": "partial",
   "theorems": [
    "intersection_order_free",
    "intersection_special",
    "intersection_values",
    "intersection_never_empty",
    "intersection_nesting_partial",
    "intersection_nesting_refuted"
   ],
   "note": "exact without any; with any nesting changes the result between any and never (intersection_nesting_refuted)."
  },
  {
   "property": "C40",
   "status": "proved",
   "theorems": [
    "query_is_innermost",
    "query_order_independent",
    "span_of_is_first",
    "span_slices_partitioned"
   ],
   "note": "identifiers are numbers or tuples of numbers"
  },
  {
   "property": "C41",
   "status": "partial",
   "theorems": [
    "renaming_total",
    "renaming_preserves_binding_partial",
    "renaming_hoisted_refuted",
    "renaming_with_refuted",
    "renaming_catch_var_refuted",
    "renaming_keeps_exports",
    "renaming_keeps_eval",
    "renaming_keeps_with",
    "renaming_fresh",
    "renaming_distinct"
   ],
   "note": "false of the code in three cases, each with a witness: functions hoisted out of nested blocks, variables pinned by a with in an inner function, and var x inside catch (x). Proved for all programs without these."
  },
  {
   "property": "C42",
   "status": "proved",
   "theorems": [
    "generated_names",
    "generated_name_first",
    "generator_terminates",
    "generated_injective"
   ],
   "note": ""
  },
  {
   "property": "C43",
   "status": "proved",
   "theorems": [
    "rewrite_edits",
    "rewrite_only_edits",
    "rewrite_literals",
    "rewrite_others"
   ],
   "note": "a replacement at a string literal is widened to the whole literal, as the code does"
  },
  {
   "property": "C44",
   "status": "proved",
   "theorems": [
    "string_literal_denotes",
    "auto_quotes_shortest",
    "string_literal_round_trip"
   ],
   "note": ""
  },
  {
   "property": "C45",
   "status": "proved",
   "theorems": [
    "template_segment_denotes",
    "template_segment_round_trip"
   ],
   "note": "emit_template_raw_segment (literal types) is not modelled"
  },
  {
   "property": "C46",
   "status": "proved",
   "theorems": [
    "position_exact",
    "position_of_any_offset",
    "displayed_line_exact",
    "underlines_exact"
   ],
   "note": "message text, colours and context lines are not modelled"
  },
  {
   "property": "C47",
   "status": "partial",
   "theorems": [
    "normalize_resolves",
    "every_path_named",
    "normalized_form",
    "normalize_idempotent_partial",
    "normalize_idempotent_refuted"
   ],
   "note": "idempotence is false for a path without a drive whose first segment looks like one; everything else is proved"
  },
  {
   "property": "C48",
   "status": "partial",
   "theorems": [
    "diagnostic_order_total_preorder",
    "diagnostic_order_by_place",
    "sorted_report_deterministic",
    "sorted_report_exact_refuted"
   ],
   "note": "the sorted report is the same up to the order of labels and notes inside one diagnostic; exact equality is false (diagnostics whose labels are permuted compare equal and keep their input order)"
  },
  {
   "property": "C49",
   "status": "proved",
   "theorems": [
    "shard_items",
    "shards_partition",
    "shard_parse_exact"
   ],
   "note": ""
  },
  {
   "property": "C50",
   "status": "proved",
   "theorems": [
    "lookup_precedence",
    "lookup_ignores_order_across_kinds",
    "manifest_accepted",
    "expectation_meaning"
   ],
   "note": "the glob and regex libraries are parameters; TOML/JSON reading is not modelled"
  },
  {
   "property": "C51",
   "status": "proved",
   "theorems": [
    "printed_operators_reparse",
    "printed_operators_differ"
   ],
   "note": "Source-preserving printer, every tree over the prefix, postfix, infix and conditional operator table, at token level. The minifying printer fails on await under ** (await_power_refuted, under C62)."
  },
  {
   "property": "C52",
   "status": "proved",
   "theorems": [
    "cancelled_only_when_due",
    "overdue_is_cancelled",
    "thread_never_oversleeps"
   ],
   "note": "reading the clock and starting to wait are one instant; ids do not wrap"
  },
  {
   "property": "C53",
   "status": "partial",
   "theorems": [
    "overload_selected",
    "overload_values_typed",
    "overload_prefix_refuted",
    "iterator_looked_up_once_partial",
    "conversion_looks_up_once_partial",
    "iterator_looked_up_twice_refuted",
    "missing_iterator_looked_up_twice_refuted"
   ],
   "note": "Selection and types hold for every overload set whose types agree before the distinguishing index (refuted otherwise); an iterator method is looked up at most once unless an iterable stands under ? or in a union, or async and plain sequences compete (both refuted)"
  },
  {
   "property": "C54",
   "status": "partial",
   "theorems": [
    "number_key_equivalence",
    "number_key_hash_partial",
    "number_key_hash_refuted",
    "number_key_order_partial",
    "number_key_order_refuted"
   ],
   "note": "false of the code: 0.0 and -0.0 are equal keys with different hashes; the order is not transitive through NaN"
  },
  {
   "property": "C55",
   "status": "proved",
   "theorems": [
    "no_dangling_references",
    "unrooted_function_name_refuted"
   ],
   "note": "for calls on live handles, except set_function_name which needs a rooted name (refuted otherwise)"
  },
  {
   "property": "C56",
   "status": "proved",
   "theorems": [
    "heap_calls_never_panic"
   ],
   "note": ""
  },
  {
   "property": "C57",
   "status": "proved",
   "theorems": [
    "calls_change_only_their_targets"
   ],
   "note": ""
  },
  {
   "property": "C58",
   "status": "partial",
   "theorems": [
    "resolving_functions_live_refuted"
   ],
   "note": "false of the code: the first function is not rooted while the second is allocated"
  },
  {
   "property": "C59",
   "status": "proved",
   "theorems": [
    "namespace_exports_exact",
    "namespace_exports_sorted"
   ],
   "note": "strictly sorted when the module declares no name twice"
  },
  {
   "property": "C60",
   "status": "partial",
   "theorems": [
    "string_reprint_partial",
    "string_reprint_refuted",
    "template_reprint_partial",
    "template_reprint_refuted"
   ],
   "note": "true for well-formed strings and for templates without substitutions that have no backtick at either end; refuted for lone surrogates and for a leading backtick"
  },
  {
   "property": "C61",
   "status": "partial",
   "theorems": [
    "string_literals_read",
    "string_literals_read_only",
    "legacy_octal_read_refuted",
    "template_parts_read_partial",
    "template_cr_read_refuted"
   ],
   "note": "proved both ways for strings without legacy escapes and for templates without carriage returns; refuted for three-digit octal escapes above 377 and for CR in templates"
  },
  {
   "property": "C62",
   "status": "partial",
   "theorems": [
    "printed_expressions_reparse_partial",
    "printed_typescript_reparses_partial",
    "comma_argument_refuted",
    "trailing_hole_refuted",
    "new_target_refuted",
    "cast_operand_refuted",
    "await_power_refuted"
   ],
   "note": "Holds for every tree without the refuted shapes: comma expressions as arguments or elements, trailing holes, calls in new targets, new without arguments as receiver, casts of unparenthesised prefix or power expressions, await under ** (minifier). Non-null assertions and type arguments are not covered."
  },
  {
   "property": "C63",
   "status": "partial",
   "theorems": [
    "javascript_parser_answers",
    "typescript_parser_hangs_refuted"
   ],
   "note": "JavaScript: call depth linear in the input. TypeScript: refuted, the parser loops for ever on a! == b."
  },
  {
   "property": "C64",
   "status": "proved",
   "theorems": [
    "conversion_has_type",
    "conversion_fails_cleanly",
    "endless_iterator_cut_off"
   ],
   "note": "The runtime's hooks are arbitrary functions of the whole request log."
  },
  {
   "property": "C65",
   "status": "partial",
   "theorems": [
    "back_to_javascript_partial",
    "nullable_rejected_refuted"
   ],
   "note": "Refuted for T?: a present value of a nullable type is rejected, so FrozenArray<T?> accepts no array with a present element."
  },
  {
   "property": "C66",
   "status": "proved",
   "theorems": [
    "get_follows_specification",
    "has_property_spec",
    "set_follows_specification",
    "get_after_set"
   ],
   "note": "getters and setters are an arbitrary parameter; chains of more than 10000 objects are refused by the code (C13)"
  },
  {
   "property": "C67",
   "status": "partial",
   "theorems": [
    "expressions_read_as_grammar_partial",
    "grammar_unambiguous",
    "assignment_targets_legal",
    "exponent_bases_legal",
    "grammar_exceeded_refuted",
    "parenthesised_target_refuted"
   ],
   "note": "Illegal assignment targets and, in texts without parentheses, prefix operators as bases of ** are always refused. Every phrase of the grammar is read as its tree, except parenthesised assignment targets, which the parser refuses (refuted). The converse is refuted: a ?? b || c, a ? b, c : d, a typeof b and new -a are accepted."
  },
  {
   "property": "C68",
   "status": "partial",
   "theorems": [
    "statements_follow_ecma_partial",
    "ecma_statements_run_partial",
    "calls_follow_ecma_partial",
    "environment_restored",
    "ecma_deterministic",
    "if_value_refuted",
    "finally_always_runs_refuted",
    "for_of_refuted",
    "loop_scope_refuted"
   ],
   "note": "Both directions for all statements modelled, except those refuted: the completion value after an if, a finally after a throwing catch pattern, for-of over iterators that throw, declarations in for bodies. for-in, classes, async and generator functions are not modelled."
  },
  {
   "property": "C69",
   "status": "partial",
   "theorems": [
    "minified_calls_partial",
    "minified_statements_partial",
    "minify_function_branch_refuted",
    "minify_directive_refuted",
    "minify_script_value_refuted"
   ],
   "note": "Equivalence in both directions for any sequence of the four statement passes. Excluded and refuted: function declarations as if branches, stray string statements that become directives, completion values of scripts. The passes const_fold, prop_rewrite, dce and sem_rewrite are not modelled."
  },
  {
   "property": "C70",
   "status": "partial",
   "theorems": [
    "printed_is_standard_partial",
    "printed_operand_is_standard_partial",
    "nullish_mix_refuted",
    "chained_target_refuted",
    "chain_parens_refuted"
   ],
   "note": "For all trees of C62 except the refuted shapes: the minifying printer writes (a ?? b) || c without parentheses, and both printers drop the parentheses that end an optional chain, which makes (a?.b).c = d a syntax error and changes the value of (a?.b).c."
  },
  {
   "property": "C71",
   "status": "partial",
   "theorems": [
    "statement_parser_total",
    "standard_program_read_partial",
    "standard_program_unique_partial",
    "semicolon_before_else_refuted",
    "label_before_else_refuted",
    "do_before_else_refuted",
    "break_at_end_refuted",
    "missing_semicolon_refuted",
    "declaration_as_body_refuted",
    "do_body_refuted",
    "two_defaults_refuted"
   ],
   "note": "Termination on every input; acceptance with the standard tree for all programs modelled except the refuted ones: break l, continue l, debugger and do before else, and break, continue and return at the very end. That only programs are accepted is refuted. Line terminators, classes, modules, patterns, generators and async functions are not modelled."
  },
  {
   "property": "C72",
   "status": "partial",
   "theorems": [
    "printed_program_is_standard_partial",
    "printed_program_read_back_partial",
    "of_comma_refuted",
    "declared_comma_refuted",
    "header_in_refuted",
    "bare_declaration_refuted",
    "bare_body_else_refuted",
    "open_branch_refuted"
   ],
   "note": "For all programs modelled except the refuted shapes: comma expressions after of and (AST printer) as initialisers, in operators in for headers, bodies of for that the AST printer prints without braces, and trees whose if branch ends in an if without else."
  },
  {
   "property": "C73",
   "status": "partial",
   "theorems": [
    "rejected_not_assignable_partial",
    "accepted_assignable_partial",
    "answers_follow_rules_partial",
    "fresh_answer_refuted",
    "deep_types_refuted",
    "member_of_union_refuted",
    "undefined_as_empty_refuted",
    "bottom_as_intrinsic_refuted",
    "tuple_length_refuted",
    "tuple_rest_refuted",
    "array_property_refuted",
    "intersection_refuted"
   ],
   "note": "No false rejection in plain stores, recursive types included, with any limits and history; exact answers for types that are not recursive and within the depth limit. Outside that, refuted: recursive types, deep types, unions with type parameters, {} and conditional types, tuples of varying length, number indices next to properties, intersections. Not modelled: variance annotations, mapped, template, indexed access, keyof, infer and predicate types, explanations."
  },
  {
   "property": "C74",
   "status": "partial",
   "theorems": [
    "answers_history_free_partial",
    "same_type_related",
    "top_takes_all",
    "bottom_goes_everywhere_partial",
    "strict_subtype_irreflexive",
    "comparable_symmetric_partial",
    "strict_subtype_asymmetric_partial",
    "history_free_refuted",
    "bottom_as_intrinsic_refuted"
   ],
   "note": "Independence of the history, symmetry and asymmetry for types that are not recursive, within the limits; the other laws for all stores, histories and limits. Refuted for recursive types: what was assumed in a cycle stays in the cache."
  },
  {
   "property": "C75",
   "status": "partial",
   "theorems": [
    "folded_strings_are_read",
    "folded_strings_are_rejected",
    "vm_strings_are_read_partial",
    "vm_strings_are_rejected",
    "vm_long_integers_refuted",
    "bigint_strings_partial",
    "bigint_strings_refuted"
   ],
   "note": "Complete for the minifier and the optimizer, for any rounding of decimals (the rounding itself is a parameter). At run time: complete except for hexadecimal, octal and binary integers of 2^53 and more, where rounding digit by digit is refuted. BigInt strings: blank strings and signs before a prefix are refuted."
  },
  {
   "property": "C76",
   "status": "partial",
   "theorems": [
    "folded_numbers_are_spelled",
    "vm_numbers_are_spelled",
    "literal_text_is_no_spelling_refuted",
    "folded_uint32",
    "folded_int32"
   ],
   "note": "Complete for the minifier and the VM, for any choice of digits (the search for the shortest digits, done by ryu, is a parameter); refuted for the optimizer, which uses the text of a number literal when it adds numbers to strings."
  },
  {
   "property": "C77",
   "status": "partial",
   "theorems": [
    "folding_keeps_values_partial",
    "folding_keeps_conditions_partial",
    "folding_powers_refuted",
    "folding_callees_refuted",
    "folding_references_refuted",
    "folding_names_refuted",
    "folding_surrogates_refuted"
   ],
   "note": "All operators and literals, any nesting, any host. Missing, because refuted: ** where Rust's powf differs from Number::exponentiate, conditional expressions in places where a reference, name, anonymous function or optional chain matters, and strings with lone surrogates. Not modelled: how folded numbers are printed."
  },
  {
   "property": "C78",
   "status": "partial",
   "theorems": [
    "side_effect_free_partial",
    "conversions_are_free_refuted"
   ],
   "note": "All expressions without classes whose converting operators and templates are not applied to object, array, function or regular expression literals; on those it is refuted. A RangeError for BigInts too large to represent is outside the semantics."
  },
  {
   "property": "C79",
   "status": "partial",
   "theorems": [
    "binary_constants_partial",
    "unary_constants_partial",
    "comparisons_panic",
    "unary_never_panics",
    "evaluation_total_refuted",
    "not_bigint_refuted",
    "string_order_refuted",
    "large_bigint_refuted",
    "bigint_string_equality_refuted",
    "number_text_refuted",
    "power_refuted",
    "math_calls_partial",
    "round_half_refuted",
    "number_calls",
    "named_constants"
   ],
   "note": "All operators and pairs of constants, with the arithmetic of doubles as a parameter that agrees with the engine's. Missing, because refuted: negating BigInts, ordering a BigInt against a number (a panic), strings outside the basic plane, BigInts beyond 2^53 or blank strings against ==, the text of some numbers, ** where powf differs, and halves under Math.round. Math.sin and the like are approximations in ECMA-262 and left open."
  },
  {
   "property": "C80",
   "status": "partial",
   "theorems": [
    "value_numbering_preserves_partial",
    "value_numbering_keeps_form",
    "value_numbering_ends",
    "value_numbering_flattens_copies",
    "property_reads_refuted"
   ],
   "note": "For every machine the evaluator agrees with and whose operators the program's own effects do not influence, executions are equal step by step. Property reads after writes are merged although they differ (refuted). Panics are exactly those of the evaluator (C79)."
  },
  {
   "property": "C81",
   "status": "partial",
   "theorems": [
    "pruning_block_preserves_partial",
    "pruning_preserves_refuted",
    "optimizer_round_refuted",
    "pruning_panics_refuted"
   ],
   "note": "Proved for one removed block, by a stuttering simulation, when the block has no phis and no block above it jumps straight to a successor with phis. Missing: whole loop, merging of exits, moving of the entry. Refuted in general: removing an empty block that chooses a phi value loses the other value, so `r = false; if (c) r = true; f(r)` becomes f(true), also through a whole round; and merging empty exits panics when one is also reached by falling through."
  },
  {
   "property": "C82",
   "status": "partial",
   "theorems": [
    "straight_passes_preserve_partial",
    "straight_passes_end",
    "first_passes_preserve_partial",
    "ssa_then_passes_preserve_partial",
    "ssa_then_first_passes_preserve_partial",
    "ssa_then_passes_end_partial"
   ],
   "note": "Four of the five passes of a round composed, for programs without unreachable blocks whose effects do not change their operators' results; branches on bigint constants excluded (C34). Pruning, the fifth, is refuted (C81). Composed with SSA construction (C83) when its phis read only written names."
  },
  {
   "property": "C83",
   "status": "partial",
   "theorems": [
    "ssa_construction_preserves_partial",
    "ssa_construction_ends",
    "ssa_single_assignment",
    "ssa_reads_written",
    "ssa_phis_filled",
    "ssa_phis_complete",
    "ssa_well_formed",
    "ssa_strict_partial",
    "ssa_strict_refuted"
   ],
   "note": "For every program of convert_insts_to_bblocks' shape (no phis, every block reachable, label 0 not a jump target); it always ends without a panic (ssa_construction_ends). Its result is well formed, writes every variable once, its phis have one entry for each predecessor, and its other instructions read only what is written before, but it is not strict: phis may read variables that are never written (refuted), unless all variables are written before control comes to a join (ssa_strict_partial). Graphs with unreachable blocks or jumps to the start are not covered."
  },
  {
   "property": "C84",
   "status": "proved",
   "theorems": [
    "find_loops_exact",
    "find_loops_single_entry"
   ],
   "note": "For every graph built with the graph operations, including irreducible graphs and unreachable blocks. It always ends, and its table is characterised exactly."
  },
  {
   "property": "C85",
   "status": "proved",
   "theorems": [
    "loops_nested",
    "loops_never_overlap",
    "loop_parent_innermost",
    "loop_latches_exact",
    "loop_exits_exact"
   ],
   "note": "For every graph, reducible or not. A consequence: the overlapping list of LoopInfo::compute is always empty, so irreducible parts of a graph are never reported through it."
  }
 ]
}