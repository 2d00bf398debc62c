# Formal model of wilsonzlin/ecma-rs in Coq 8.16.1

## Layout

* `properties.jsonl` – the English properties (C01 …).
* `rocq/theories/<Area>Model.v` – the model: total Gallina functions, one per Rust
  function, each with a comment citing file and lines in /repo.
* `rocq/theories/<Area>Spec.v` – a small independent specification (mathematical
  notions: reachability, paths, sorted lists, …) that does not use the model's helpers.
* `rocq/theories/<Area>Proofs.v` – lemmas and proofs.
* `rocq/theories/<Area>Properties.v` – only the property theorems (`exact lemma`),
  their non-vacuity `Example`s, and `Print Assumptions` under every theorem.
* `MANIFEST.json` – property → theorem names and status.
* `seeded/LOG.jsonl` – log of the mutation experiments (wrong programs tried
  against the theorems).

## Modelling conventions

* A `&mut self` method is a function returning the new state; `Result`/`Option`
  stay data. A Rust panic (`unwrap`, `assert!`, indexing) is an explicit
  `Panic`/`None` outcome, never a default value.
* Loops are structural recursion or recursion on explicit fuel with an
  out-of-fuel value; the theorems prove that the fuel given suffices or rule the
  out-of-fuel value out of their statement.
* `u32`/`u64` are `N`/`Z` with explicit wrap-around or saturation where the code
  can reach it; `usize` lengths are `nat`.
* Hash maps are finite maps; where Rust iterates over one in unspecified order
  the model takes the order as a parameter or the theorem quantifies over it.
* If the English property is false of the code, the theorem is named
  `…_refuted`, exhibits a concrete counterexample run of the model, and the
  strongest true fragment is proved beside it as `…_partial`. These are findings.

## Per-property plan

| id | model | proof |
|----|-------|-------|
| C01, C02 | slots/free list/roots, tricolour mark loop, sweep (vm-js heap.rs) | mark loop invariant (black closed under edges up to gray worklist) ⇒ marked = inductively reachable; sweep per slot |
| C03 | alloc_unchecked over the same heap | free-list/slot invariant preserved by every operation |
| C04 | generations as u32 with wrap | history invariant "generation only grows" for partial (< 2^32 collections of a slot); refutation by an explicit 2^32-cycle history, by induction not by running it |
| C05 | byte charges, thresholds, GC trigger, OOM | invariant over op lists |
| C06 | root slots + free list | refinement to a finite map over live ids; refuted for removed ids |
| C07 | root stack with scopes | induction over nested programs |
| C08–C10 | property table of an object, ValidateAndApplyPropertyDescriptor, array exotic define/setLength | invariants over op lists, per-call specification |
| C11 | own_property_keys | permutation + sortedness; distinct keys as an invariant of every history of internal methods |
| C12 | string_to_array_index, index_to_property_key | characterisation by decimal printing |
| C13 | prototype pointers, set_prototype check | acyclicity invariant; lookup = nearest on path |
| C14 | sorted binding vector with binary search | refinement to a finite map |
| C15 | symbol registry | invariant: sorted, injective |
| C16, C17 | job queue machine, jobs with root lists | fuelled drain with arbitrary job behaviour; trace = FIFO |
| C18, C19 | promise slots and engine promise | history invariants; refutation for raw setter |
| C20 | tracker state machine | refinement to sets of events |
| C21, C22 | module graph, fuelled resolve; fuel bound from finite resolve set | termination measure + agreement with an inductive spec |
| C23 | attribute list comparison | refuted in general; equivalence for duplicate-free lists |
| C24 | loading state machine with host completions as arbitrary event lists | counter invariant |
| C25 | sign/magnitude integers | equality with Z arithmetic |
| C26 | abstract_equality on primitives | comparison with the spec relation; refuted for BigInt mixes |
| C27 | tick machine | counting invariant |
| C28, C29 | graph as two maps; BFS | invariant; reachability |
| C30 | iterative idom algorithm | partial correctness against path dominance |
| C31 | phi elimination per edge | refuted (swap); proved when no phi reads another phi's target |
| C32, C33 | straight-line/CFG IL semantics | simulation |
| C34 | coerce_to_bool | case analysis; refuted for BigInt |
| C35 | greedy colouring | invariant |
| C36 | worklist data-flow | refuted with a two-block program |
| C37 | interner with arbitrary hash | invariant |
| C38, C39 | union/intersection normalisation on an abstract ordered type algebra | sort/dedup canonicity; refuted for `true \| false \| string` nesting |
| C40 | sweep-line segments + binary search | functional correctness vs minimum over containing spans |
| C41–C43 | scope tree, usage collection, name assignment, rewriting | capture-freedom; refuted for `with`-pinned and Annex B names |
| C44, C45 | escaping | round-trip with an ECMAScript literal reader |
| C46 | line table + binary search | characterisation by newline counting |
| C47 | segment machine | refuted idempotence (`./C:/x`), proved otherwise |
| C48 | lexicographic comparison | total preorder; sort canonicity |
| C49, C50 | sharding, lookup | partition, precedence |
| C51, C62, C63 | both printers as functions to token lists; the precedence parser with call-depth fuel | a relation between printed tokens and parser runs, by induction on trees; fuel bound linear in the input; witnesses for the refuted shapes |
| C52 | timeout machine with arbitrary schedules | history invariant |
| C53, C64, C65 | WebIDL conversions and overload resolution over a runtime whose every answer is an arbitrary function of the request log | two program logics (result type; number of look-ups per argument) over the request monad |
| C54 | JsNumber Eq/Hash | refuted for ±0 |
| C55–C57 | heap histories: every public heap operation as one step of a machine, host roots chosen by the environment | invariant `heap_ok` preserved by every step; frames for objects not written |
| C58 | rooting during resolving-function creation | refuted by a two-allocation run |
| C59 | module namespace export list | sort canonicity plus the resolution specification of C21 |
| C60, C61 | the parser's literal reader, the printers' escaping, an ECMAScript literal grammar | equivalence with the grammar both ways; refutations by witness |
| C66 | ordinary_get, ordinary_set, has_property with calls into user code as a parameter | refinement of get_spec / set_spec (ECMA-262 10.1.8.1, 10.1.9.2) over abstract objects and chains |
| C67 | the precedence parser of C62 against the productions of ECMA-262 section 13 as an inductive relation | induction on derivations, each nonterminal with the minimum precedence it can be read at and the tokens it keeps out; refused assignment targets and bases of `**` by induction on the parser's fuel |
| C68 | the statement evaluator of exec.rs over an arbitrary machine (expressions, bindings and iterators are arbitrary functions of environment and world that may throw or stop the engine); ECMA-262 section 14 as an inductive relation | induction on the steps one way, on derivations the other; determinism of the relation; environment restoration by induction on the steps |
| C69 | the statement passes of minify-js/src/opt over the statements of C68; the binder's answers are arbitrary | the ECMA-262 relation of C68 up to completion values; one congruence lemma per statement form, one local law per rewriting, labels tracked because a removed `if` puts a label onto a loop; induction over the list of passes |
| C70 | the printers of C62 against the grammar of C67, and the value of member chains with parentheses | every printed tree is derived in the grammar, by induction on the tree: each tree has a nonterminal of its own, from which chain productions lead to the one the printer's minimal precedence stands for |
| C71 | stmt/mod.rs and stmt/decl.rs over tokens without line terminators, on the expression parser of C63; the statement grammar of ECMA-262 with semicolon insertion and the else rule, as relations from texts to trees (SynSpec) | induction on derivations: the fuelled parser eventually returns the tree, up to empty statements it makes of semicolons it left over; fuel monotone, and enough for every input by counting tokens; non-programs by inversion of derivations |
| C72 | emit-js/src/stmt.rs and the statements of emit-js/src/hir.rs at token level | induction on the tree: a derivation of the printed text, with what may follow a statement (no else after an open if) as side condition; the round trip follows from C71 |
| C73 | types-ts-interned/src/relate.rs: relate_internal with its cache, cycle and limit tests; assignable as a tree of further questions | rules of assignability as a greatest fixed point; per construct, the tree holds iff the rule does; no false rejection by an invariant on the cache (every cached no is right) that survives cycles and limits; exactness by induction on depth for types that are not recursive |
| C74 | the same, with a cache that may forget anything after each insertion | the answers of a context equal a context-free evaluation, by induction on depth; laws by the cache invariant of C73 |
| C75 | coerce_str_to_num and parse_bigint (const_fold.rs, consteval.rs), string_to_number (ops.rs), with the grammar of Rust's float parser; rounding of decimals is a parameter | StringNumericLiteral as an inductive relation; parser and validator are shown to accept exactly its strings with its values, by splitting at digits, point and exponent |
| C76 | ryu's layout of given digits, its re-reading and the final layout (const_fold.rs, property.rs); ToUint32 by truncation and remainder; the shortest digits are a parameter | Number::toString by cases on digits and exponent; the five layouts of ryu are read back to digits and exponent, then laid out; arithmetic modulo 2^32 |
| C77 | const_fold.rs over all expression forms, the float operations of Rust as parameters; ECMA-262 13 as an evaluator into a state-and-exception monad over an arbitrary host | the operators on constants are matched one by one with ECMA-262's; then mutual induction over expressions and lists, with separate facts for values, conditions, references and optional chains |
| C78 | side_effects.rs, over the same evaluator | mutual induction that also tracks which values can be objects, strings, BigInts and of which sign |
| C79 | consteval.rs over the constants of the optimizer's instructions, double arithmetic as a parameter; the operators are those of the expression evaluator of C77 | case analysis over operators and kinds of constants; rounding of mantissas for Math; refutations by computation |
| C80 | optpass_dvn.rs on the graphs and machine of C33, the dominator tree of DomModel.v, the constant evaluator as a parameter | every equation the tables hold is an invariant of all reachable states (dominance excludes redefinition); blocks may be rewritten in any order, so the recursion composes; lockstep equality of executions |
| C81 | optpass_cfg_prune.rs on the graphs and machine of C33 | executions of a block and of the block it is merged into, related with stuttering; where it is false, two programs and their runs |
| C82 | lib.rs 494-518, composing the models of C33, C34, C80, C81 | the conditions each pass needs are shown to be left by the ones before: dropping and rewriting instructions one by one keeps SSA form; no copy of a copy after value numbering. SSA construction is shown to leave what the first pass asks for, but for the arguments of phis |
| C83 | analysis/defs.rs, ssa/ssa_insert_phis.rs, ssa/ssa_rename.rs, lib.rs 476-487 on the graphs and machine of C33 | a program and its SSA form related step by step: at the end of a block each old variable has the value of its current name; phis are shown to be where dominance frontiers need them. That it ends: no block is queued twice, no phi gets two entries of one predecessor, and the dominator tree is no deeper than the program has blocks. Single assignment: the names given to visited blocks are distinct and below the counter. Reads: along every path, the current name of a variable is one written on the path, or the variable is written nowhere on it. Well-formedness: renaming keeps all but names, and phis are only entered through insert_phi, which panics on a second entry |
| C84 | analysis/find_loops.rs on the graphs and dominators of C30 | natural loops are specified by back edges and paths avoiding the header; invariant of the backward search: its blocks lie on such paths, and every finished block has all its dominated predecessors in the loop |
| C85 | analysis/loop_info.rs (entries, parents, overlapping pairs, latches, exits) on the loops of C84 | two headers of one block are ordered by dominance along a walk without repetitions; the inner header reaches the outer's jump back without passing the outer header. The parent: the fold keeps a smallest enclosing loop, which nesting makes the innermost |

## Trusted base

* Coq 8.16.1's kernel (and `coqc`, `vm_compute` inside the kernel).
* The correspondence between the Rust text and the model, by reading; each
  definition cites its source lines and says where it simplifies.
* The specifications in the `*Spec.v` files and the statements in the
  `*Properties.v` files.

### What Print Assumptions lists

Every theorem named in `MANIFEST.json` has `Print Assumptions` directly beneath
it, and for each of them the answer is `Closed under the global context`: no
axiom is used, neither of the standard library nor of any other library.
`coqchk -o` on the compiled files lists, for the loaded libraries as a whole,
only the seven parameters of the interface `Coq.ssr.ssrunder.Under_rel`, which
std++ loads and no theorem here uses.

### What is modelled, and what is not

| crate | modelled | left out |
|---|---|---|
| vm-js | heap.rs (slots, tracing, mark and sweep, byte accounting, roots, scopes, strings, symbols, registry, property tables, prototypes, environments, promises, functions), property.rs, env.rs, object_ops.rs, function_properties.rs, promise_ops.rs and promise.rs, microtasks/jobs, rejection tracker, module_graph.rs (loading, export resolution, namespaces), BigInt arithmetic, loose and strict equality, budgets, statement control flow (exec.rs) | expressions and bindings of the evaluator (exec.rs) beyond the operators named, for-in, classes, builtins, module evaluation order, rounding of decimals and shortest digits |
| parse-js | operator table, expression parser (expr/mod.rs), statement parser (stmt/mod.rs, stmt/decl.rs) on one line, literal lexing and decoding, JsNumber | line terminators, classes, modules, patterns, JSX, type syntax, error recovery |
| emit-js | both expression and statement printers at token level, string and template escaping | spacing rules, object, function and class literals, modules |
| optimize-js | CFG, dominators, frontiers, dead-code, copy propagation, branch folding, phi handling, out-of-SSA copies, liveness, interference, register colouring; all of consteval.rs (C75, C76, C79; double arithmetic and the transcendental functions are parameters); value numbering (C80), graph pruning (C81), the optimisation loop's round (C82), SSA construction (C83), loop discovery and nesting (C84, C85) | HIR lowering, decompilation |
| minify-js, semantic-js | usage collection, name generation and assignment, rewriting of the source; stmt_rewrite.rs, cf_rewrite.rs, cleanup.rs, decl_combine.rs over the statement language of C68; const_fold.rs and side_effects.rs on expressions (C77, C78: the arithmetic of doubles, decimal rounding and shortest digits are parameters, classes only a flag) | binding (its result is an input), const_fold.rs's walk over statements and patterns, prop_rewrite.rs, dce.rs, sem_rewrite.rs |
| types-ts-interned | id interning, snapshots, name interner, union and intersection normalisation, the relation engine (relate.rs) but for variance annotations, explanations and mapped, template, indexed-access, keyof, infer, this and predicate types | evaluation of types (a function of the store in the relation model) |
| hir-js, diagnostics | span index; lines and columns, path normalisation, ordering of diagnostics | lowering; rendering text |
| conformance-harness | shards, expectations, timeout manager | test discovery, reports |
| webidl | conversions, overload resolution | webidl-vm-js glue |

Simplifications common to all: the system allocator does not fail and gives
exactly the capacity asked for; hash maps are finite maps; floating point values
are bit patterns; system-dependent sizes are parameters of the heap model.

## Findings

Places where the code does not have the property a user would expect.  Those
with a theorem name are proved of the model; the others were found by reading
and are not (yet) theorems.

| what | theorem |
|---|---|
| constant folding takes the wrong branch on BigInt constants | bigint_truthiness_refuted, bigint_branch_preserved_refuted |
| backward data-flow never propagates between blocks; live sets and registers computed from it are wrong | backward_analysis_propagates_refuted, live_ins_complete_refuted, registers_respect_liveness_refuted |
| leaving SSA copies one after the other: exchanged values are lost | leaving_ssa_preserves_refuted |
| copy propagation leaves uses of removed variables in chains | copy_chains_preserved_refuted |
| blocks without edges are never removed | all_unreachable_blocks_removed_refuted |
| dominance frontiers never contain the entry; an unreachable predecessor panics | frontiers_entry_refuted, frontiers_unreachable_parent_refuted |
| 0 and -0 are equal map keys with different hashes; the order is not transitive through NaN | number_key_hash_refuted, number_key_order_refuted |
| a slot's 32-bit generation wraps, a stale handle becomes valid again | stale_handle_forever_refuted |
| ids of removed roots denote other roots later | removed_root_id_reused_refuted |
| set_function_name keeps a dangling name if the name is not rooted | unrooted_function_name_refuted |
| the first resolving function of a promise may be collected while the second is made | resolving_functions_live_refuted |
| a settled promise can be settled again through the heap API | settling_settled_promise_noop_refuted |
| raw property writes break essential invariants and array length; running out of memory while shrinking an array leaves elements beyond its length | essential_invariants_raw_refuted, array_length_raw_refuted, array_length_oom_refuted |
| a declarative record can hold two bindings of one name | declared_twice_refuted |
| jobs enqueued inside getters of host-less calls are dropped or run out of order; a panicking job blocks its queue for good | vm_checkpoint_fifo_refuted, vm_call_keeps_jobs_refuted, checkpoint_after_panic_refuted |
| a failing host hook leaves a module load pending for ever | load_with_failing_hook_settles_refuted |
| a module that exports a name twice lists it twice | exported_names_once_refuted |
| equality of module requests is not symmetric with repeated attributes | requests_equal_symmetric_refuted |
| BigInt == Number, String or Boolean is always false | loose_equality_spec_refuted |
| unions with both Boolean literals and intersections with any depend on nesting | union_nesting_refuted, intersection_nesting_refuted |
| path normalisation is not idempotent on `./C:/x` | normalize_idempotent_refuted |
| minification captures names: hoisted block functions, `with`, `var` in `catch` | renaming_hoisted_refuted, renaming_with_refuted, renaming_catch_var_refuted |
| sorted diagnostics depend on the order of labels | sorted_report_exact_refuted |
| lone surrogates and leading backticks do not survive printing | string_reprint_refuted, template_reprint_refuted |
| legacy octal escapes above 377 and CR in templates are misread | legacy_octal_read_refuted, template_cr_read_refuted |
| comma arguments, trailing holes, new targets, casts and await under ** are misprinted | comma_argument_refuted, trailing_hole_refuted, new_target_refuted, cast_operand_refuted, await_power_refuted |
| the TypeScript parser loops for ever on `a! == b` | typescript_parser_hangs_refuted |
| overload resolution looks iterator methods up twice and converts leading arguments for the wrong overload | iterator_looked_up_twice_refuted, missing_iterator_looked_up_twice_refuted, overload_prefix_refuted |
| present values of nullable WebIDL types are rejected on the way back | nullable_rejected_refuted |
| alloc_object_with_properties accepts a table with a repeated key; own keys then repeat it | own_keys_distinct_raw_refuted |
| `(a) = b` is an ECMAScript assignment and is refused in strict ECMAScript mode | parenthesised_target_refuted |
| `a ?? b \|\| c`, `a ? b, c : d`, `a typeof b`, `new -a` are accepted although outside the grammar | grammar_exceeded_refuted |
| an `if` without a value leaves the previous completion value instead of undefined | if_value_refuted |
| a catch pattern that throws skips the finally block | finally_always_runs_refuted |
| for-of closes an iterator whose next() threw, and loses errors of closing | for_of_refuted |
| a `let` in the body of a `for` stops the engine in the second round | loop_scope_refuted |
| minifying `let f; if (1) function f(){}` gives `let f; function f(){}`, a SyntaxError | minify_function_branch_refuted |
| minifying `; "use strict"` or `if (1) "use strict"` makes a directive of the string | minify_directive_refuted |
| minifying `1; if (false) 2` changes the value of the script | minify_script_value_refuted |
| the minifier prints `(a ?? b) \|\| c` as `a ?? b \|\| c`, a SyntaxError | nullish_mix_refuted |
| both printers print `(a?.b).c = d` as `a?.b.c = d`, a SyntaxError | chained_target_refuted |
| both printers print `(a?.b).c` as `a?.b.c`: undefined instead of a TypeError | chain_parens_refuted |
| the parser refuses `if (a) debugger; else b`, and `break l`, `continue l`, `do` before `else` | semicolon_before_else_refuted, label_before_else_refuted, do_before_else_refuted |
| the parser refuses `while (a) break` at the end of the input | break_at_end_refuted |
| the parser takes `debugger a`, `if (a) let b`, `do {}; while (a)` and a switch with two defaults | missing_semicolon_refuted, declaration_as_body_refuted, do_body_refuted, two_defaults_refuted |
| both printers print `for (a of (b, c))` as `for (a of b, c)`, a SyntaxError the parser takes | of_comma_refuted |
| the AST printer prints `var a = (b, c)` as `var a = b, c`, which declares c | declared_comma_refuted |
| both printers print `for (var a = (b in c);;)` as `for (var a = b in c;;)`, a SyntaxError | header_in_refuted |
| the AST printer prints `for (;;) { let a }` as `for (;;) let a`, a SyntaxError | bare_declaration_refuted |
| the AST printer drops the braces in `if (a) for (;;) { if (b) c } else d`: the else changes its if | bare_body_else_refuted |
| a function declaration without a body is taken even in strict ECMAScript mode (stmt/decl.rs, func_decl) | by reading |
| the relation engine caches what it concluded under a cycle assumption that later failed: after asking A = {n: C, v: string} against B = {n: D, v: number}, C = {up: A} is assignable to D = {up: B}, which it is not and was not before | history_free_refuted |
| the same inside one question to a fresh context: {a: A, c: C} is assignable to {a: B} \| {c: D} | fresh_answer_refuted |
| types nested deeper than about 32 levels are assignable whatever they contain (the depth limit answers yes) | deep_types_refuted |
| T is not assignable to T \| undefined, an unresolved conditional type C not to C \| undefined, {} not to {} \| undefined | member_of_union_refuted |
| string \| undefined is assignable to {} under strictNullChecks | undefined_as_empty_refuted |
| any and never are not assignable to Uppercase<string>; any is assignable to never, every type to a type parameter | bottom_as_intrinsic_refuted |
| [string, number, boolean] is assignable to [string, number?], and [string, number?] to [string] | tuple_length_refuted |
| [string, string] is not assignable to [...string[]] | tuple_rest_refuted |
| number[] is assignable to {foo: string, [n: number]: number} | array_property_refuted |
| {a: number} is assignable to {[k: string]: number}, its intersection with {[k: symbol]: string} is not | intersection_refuted |
| Number("0x200000000000011") rounds twice at run time and is not the nearest double | vm_long_integers_refuted |
| 0n == "" is folded to false, and -16n == "-0x10" to true | bigint_strings_refuted |
| the optimizer folds 1e21 + "" to "1e21", Infinity + "" to "1e400", -0 + "" to "-0" | literal_text_is_no_spelling_refuted |
| 1 ** Infinity is folded to 1 (it is NaN) | folding_powers_refuted |
| (true ? o.m : 0)() is folded to o.m(), which passes o as this; (1 && eval)(s) to a direct eval | folding_callees_refuted |
| typeof (true ? u : 0), delete (true ? o.p : 0) and (true ? n?.b : 0).c lose their parentheses and mean something else | folding_references_refuted |
| x = true ? function () {} : 0 is folded so that the function gets the name x | folding_names_refuted |
| "\uD800" === "\uD801" is folded to true | folding_surrogates_refuted |
| +{valueOf() {…}}, [] < {} and `${{toString() {…}}}` are dropped as free of side effects | conversions_are_free_refuted |
| !0n is evaluated to false and !1n to true | not_bigint_refuted |
| 1n < 1 makes the optimizer panic | evaluation_total_refuted |
| "￿" < "\u{10000}" is evaluated to true | string_order_refuted |
| 9007199254740993n == 9007199254740992 is evaluated to true | large_bigint_refuted |
| 0n == "" is evaluated to false, -1n == "-0x1" to true | bigint_string_equality_refuted |
| 1e21 + "" is evaluated to "1e21", -0 + "" to "-0" | number_text_refuted |
| Math.round(-2.5) is evaluated to -3 | round_half_refuted |
| o.x read again after o.x = v gives the old value: value numbering treats property reads as pure | property_reads_refuted |
| r = false; if (c) r = true; f(r) is optimized to f(true): pruning an empty block overwrites the phi entry of the block above | pruning_preserves_refuted, optimizer_round_refuted |
| two empty exits each reached by a jump and by falling through make pruning panic | pruning_panics_refuted |
| SSA construction puts phis for variables that are not live: after a branch that alone writes a temporary, the phi reads a variable never written, so the form is not strict and the theorems about value numbering that assume `strict_ssa` do not apply to it | ssa_strict_refuted |

By reading only:

* optimize-js: cfg_prune overwrites a phi entry when the pruned block's parent
  also reaches its child, and drops the initial value of a loop header's phi
  when it reroots the entry; js_cmp and coerce_to_num panic on BigInt against
  Number; comparison of strings is by UTF-8 rather than UTF-16; trivial_dce
  deletes unused property reads, which may have side effects.
* vm-js: the comma operator is not implemented; initialisers in a catch
  pattern see the block's declarations; roots leak when a loop ends in an
  engine error; Promise::reject drops the remaining reactions after an allocation
  failure; slot indices above 2^32 are truncated; non-decimal StringToNumber is
  not correctly rounded.
* emit-js: tagged templates are re-emitted from cooked text; `a! == b` is
  printed `a!==b`; `(a?.b).c` loses its parentheses; the minifying printer
  writes `(a && b) ?? c` without parentheses.
* minify-js: `(1 - 2) ** x` is folded to a literal that is printed `-1**x`, a
  syntax error; 0 / 0 is printed as the identifier NaN; dce turns
  `let x = f(), g = function () {}` into `let g = (f(), function () {})`, so g
  loses its name; `undefined++` is rewritten to `(void 0)++`; `x === null ||
  x === undefined` becomes `x == null`, which differs for document.all.
* parse-js: `a typeof b` is accepted as a binary expression.
* types-ts-interned: intern_shape merges origins in an order-sensitive way.
