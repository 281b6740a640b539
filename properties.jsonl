{"id": "C01", "title": "Integer arithmetic wraps, never fails", "statement": "`int` addition, subtraction, multiplication and negation return the two's-complement 64-bit result of the mathematical operation, for every pair of operands, and never fail.", "quantifier": "all pairs of 64-bit integers", "why_tests_cant": "2^128 operand pairs", "anchors": ["src/std/math.rs: add/sub/mul/neg native functions (wrapping_*)"]}
{"id": "C02", "title": "Integer division and remainder", "statement": "`idiv`/`rem` (truncating) and `idiv_euclid`/`mod` (Euclidean) return the mathematical quotient/remainder for every non-zero divisor, and dividing by zero is a catchable source failure (never a host crash): in particular `q*d + r = n` and, for `mod`, `0 <= r < |d|`.", "quantifier": "all pairs of 64-bit integers", "why_tests_cant": "2^128 operand pairs; the failing pair (minimum, -1) is a single corner", "anchors": ["src/std/math.rs: idiv, idiv_euclid, rem, mod"]}
{"id": "C03", "title": "Bit operations", "statement": "Bitwise and/or/xor/not, shifts, rotates, `bit`, `set_bit`, `clear_bit`, `test_bit`, `count_ones`, `count_zeros` act on the 64-bit two's-complement representation exactly as documented: setting/clearing/testing one bit affects only that bit, rotation is a bijection undone by the opposite rotation, `count_ones + count_zeros = 64`, and out-of-range bit positions are harmless.", "quantifier": "all 64-bit integers and all (including negative and huge) shift counts", "why_tests_cant": "value x shift-count space is 2^128", "anchors": ["src/std/math.rs: shift_left, shift_right, rotate_left, rotate_right, bit, set_bit, clear_bit, test_bit, count_ones, count_zeros, clamp_to_u32"]}
{"id": "C04", "title": "Equal values have equal hashes", "statement": "For every two values that compare equal with `==`, `hash` gives the same result, so that they are interchangeable as hash-map keys.", "quantifier": "all pairs of equal values of hashable type", "why_tests_cant": "pairs of equal but differently represented values (0.0 and -0.0) are rare corners", "anchors": ["src/std/math.rs: equal_float, hash_float", "src/std/hash.rs: Hasher"]}
{"id": "C05", "title": "Unordered hashing ignores order", "statement": "The hash of a set or map depends only on its contents: feeding the element hashes to the unordered hasher in any order gives the same result.", "quantifier": "all multisets of element hashes and all their permutations", "why_tests_cant": "n! orders for every n", "anchors": ["src/std/hash.rs: UnorderedHasher::add, finish"]}
{"id": "C06", "title": "HashSet behaves as a set", "statement": "After any sequence of insertions, `contains` answers exactly whether an equal element has been inserted, `insert` reports whether the element was new, and `len` is the number of distinct elements; this holds whatever the hash function (collisions included) as long as equal elements hash equally.", "quantifier": "all operation sequences, all element types, all hash functions compatible with equality", "why_tests_cant": "unbounded histories, growth and collision patterns", "anchors": ["src/std/prelude/hash_collections.fer: set_insert, set_contains, insert_entry, find_index_with_hash, rehash"]}
{"id": "C07", "title": "HashMap behaves as a finite map", "statement": "After any sequence of insertions, `get` returns the value most recently inserted for an equal key and nothing otherwise; `insert` returns the previous value of that key; `len` is the number of distinct keys.", "quantifier": "all operation sequences, all key types, all compatible hash functions", "why_tests_cant": "unbounded histories, growth and collision patterns", "anchors": ["src/std/prelude/hash_collections.fer: map_insert, map_get, map_contains_key, rehash"]}
{"id": "C08", "title": "Hash tables are never full and every probe terminates", "statement": "In every reachable hash set or map at least one bucket is free, the capacity is a power of two (or zero), no probe ever wraps around the whole table without meeting a free bucket or its key, and every stored entry is found by a probe starting at its own hash.", "quantifier": "all reachable states", "why_tests_cant": "reachable states are unbounded", "anchors": ["src/std/prelude/hash_collections.fer: should_grow / insert_entry / find_index_with_hash"]}
{"id": "C09", "title": "Iterating a hash collection visits every entry exactly once", "statement": "Iterating a set or a map yields exactly its entries, each exactly once, whatever the insertion history, so the number of yielded entries equals `len`.", "quantifier": "all reachable states", "why_tests_cant": "unbounded histories", "anchors": ["src/std/prelude/hash_collections.fer: HashSetIterator, HashMapIterator next"]}
{"id": "C10", "title": "Hash collection equality is extensional", "statement": "Two hash sets are equal iff they have the same elements, and two hash maps iff they map the same keys to equal values, whatever their insertion histories and capacities.", "quantifier": "all pairs of reachable collections", "why_tests_cant": "pairs of unbounded histories", "anchors": ["src/std/prelude/hash_collections.fer: hash_collection_eq"]}
{"id": "C11", "title": "Array is a double-ended queue", "statement": "After any sequence of append, prepend, pop_back, pop_front, index writes and clears, an array observes exactly as the list built by the same operations: same length, same element at every index, same popped values.", "quantifier": "all operation sequences and element types", "why_tests_cant": "the ring buffer's wrap-around and growth states are unbounded", "anchors": ["src/std/prelude/array.fer", "src/std/prelude/array_type.fer", "src/std/buffer.rs"]}
{"id": "C12", "title": "Array indexing", "statement": "`a[i]` denotes element i for 0 <= i < len and element len+i for -len <= i < 0, and raises an out-of-bounds source failure for every other i; it never touches storage outside the live elements.", "quantifier": "all arrays and all 64-bit indices", "why_tests_cant": "all index values and buffer rotations", "anchors": ["src/std/prelude/array_type.fer: array_signed_index_to_offset, array_resolve_index, array_wrap_index"]}
{"id": "C13", "title": "Array slicing", "statement": "`array_slice(a, start, end)` returns the contiguous sub-list selected by its normalized bounds for every pair of (possibly negative or out-of-range) bounds, never fails, and splitting an array at any in-range index and concatenating gives back the array.", "quantifier": "all arrays and all index pairs", "why_tests_cant": "all index pairs", "anchors": ["src/std/prelude/array.fer: array_slice, array_slice_bound"]}
{"id": "C14", "title": "Sorting is stable, ordered and a permutation", "statement": "`sort`/`sort_by`/`sorted` produce an ordered permutation of the input in which equal elements keep their relative order, for every array and every comparison that is a total preorder.", "quantifier": "all arrays, all total preorders", "why_tests_cant": "n! inputs for every n", "anchors": ["src/std/prelude/core_impls_dependent.fer: array_merge_ranges_by, array_split_merge_by, array_merge_sort_by"]}
{"id": "C15", "title": "Range iteration", "statement": "Iterating `a..b` yields a, a+1, ..., b-1 when a <= b and a, a-1, ..., b+1 otherwise; iterating `a..=b` additionally yields b; each terminates after exactly `len` items.", "quantifier": "all pairs of 64-bit bounds", "why_tests_cant": "2^128 bound pairs, failures only at the extremes of the integer range", "anchors": ["src/std/prelude/core_impls.fer: RangeIterator, RangeInclusiveIterator next, len"]}
{"id": "C16", "title": "Iterator adaptors", "statement": "map, filter, filter_map, zip, enumerate, take, skip and chain yield exactly the list-function image of their source's items, and the consumers fold/try_fold/all/any/count/sum/find/position/minimum/maximum compute the corresponding list function, for every source.", "quantifier": "all finite sources and all argument functions", "why_tests_cant": "unbounded sources, compositions", "anchors": ["src/std/prelude/core_impls.fer"]}
{"id": "C17", "title": "Split and join are inverse", "statement": "Joining the pieces produced by splitting an array or string at a separator gives back the original, and no piece contains the separator.", "quantifier": "all sequences and non-empty separators", "why_tests_cant": "overlapping separators, separators at the ends, unbounded lengths", "anchors": ["src/std/prelude/core_impls_dependent.fer: split iterators, join", "src/std/string.rs: split iterator"]}
{"id": "C18", "title": "Data-text round trip", "statement": "Parsing the text rendered for a data value gives back that value.", "quantifier": "all data values (unbounded nesting)", "why_tests_cant": "unbounded nesting, arbitrary strings and names", "anchors": ["src/std/data_text.rs", "src/std/prelude/data_text.fer"]}
{"id": "C19", "title": "String literals round trip through inspection", "statement": "Inspecting a string prints a literal which, read back as source, denotes the same string; unescaping never fails on well-formed escapes and leaves text without backslashes unchanged.", "quantifier": "all strings", "why_tests_cant": "arbitrary Unicode content", "anchors": ["src/parser/escapes.rs: apply_string_escapes", "src/std/string.rs: inspect_string"]}
{"id": "C20", "title": "JSON string and value round trip", "statement": "Rendering a JSON-representable data value to JSON and parsing it gives back an equal value; every rendered string is a valid JSON string literal.", "quantifier": "all JSON-representable data values", "why_tests_cant": "unbounded nesting, arbitrary strings", "anchors": ["src/std/json.rs", "src/std/prelude/json.fer"]}
{"id": "C21", "title": "String concatenation agrees with in-place append", "statement": "`push_str` leaves the string in the same (NFC-normalized) state as `concat`, so both ways of building a string give equal strings.", "quantifier": "all pairs of normalized strings", "why_tests_cant": "Unicode composition corner cases (Hangul jamo)", "anchors": ["src/std/string.rs: push_str, push_normalized, concat"]}
{"id": "C22", "title": "Source positions", "statement": "The line and column reported for a byte offset are the ones obtained by counting newlines and characters before it, for every source text and every offset; snippets expand to whole characters and never panic; absolute editor positions count scalar values (or UTF-16 units) before the offset.", "quantifier": "all source texts, all byte offsets", "why_tests_cant": "all texts and offsets, multi-byte characters", "anchors": ["src/parser/location.rs: SourceEntry", "src/ide/position_index_lookup.rs"]}
{"id": "C23", "title": "Bit set refines a mathematical set", "statement": "The compiler's dense set of variables behaves as a mathematical set under insert, remove, union, membership, intersection test, iteration and counting, and two sets with the same elements compare equal and hash equal whatever their history and representation.", "quantifier": "all operation histories", "why_tests_cant": "unbounded histories, three representations", "anchors": ["src/containers.rs: DenseBitSet", "src/types/var_set.rs"]}
{"id": "C24", "title": "Linked-list arena", "statement": "The arena-allocated list used for code editing behaves as a sequence: after any history of append, prepend, insertions before/after and removals, iterating it forwards or backwards gives the same sequence as the abstract list, live addresses stay stable, and freed cells are reused without disturbing live ones.", "quantifier": "all operation histories", "why_tests_cant": "pointer-structure states are unbounded", "anchors": ["src/list.rs"]}
{"id": "C25", "title": "Effect sets have one canonical form", "statement": "Effect types behave as sets of primitive effects and effect variables: union, membership, inclusion, substitution are the set operations, and two effect types denote the same set iff they compare equal, whether stored inline or on the heap.", "quantifier": "all effect types and operation sequences", "why_tests_cant": "two representations, unbounded variable numbers", "anchors": ["src/types/effects.rs: EffType"]}
{"id": "C26", "title": "Effect inference is sound", "statement": "When the effect solver accepts a set of effect inclusions and equalities, the solution it reports satisfies all of them, so no effect of a function body is dropped from its type.", "quantifier": "all constraint sequences", "why_tests_cant": "unbounded constraint sequences with cyclic dependencies", "anchors": ["src/types/type_inference/effect_solver.rs"]}
{"id": "C27", "title": "Reverse postorder", "statement": "The traversal order used by all MIR analyses lists exactly the blocks reachable from the entry, each once, entry first, and every edge that does not close a cycle goes forward in it.", "quantifier": "all finite directed graphs", "why_tests_cant": "all graphs", "anchors": ["src/graph.rs: reverse_postorder"]}
{"id": "C28", "title": "Strongly connected components", "statement": "The component computation returns a partition of the nodes in which two nodes are together iff each is reachable from the other, listed so that callees come before callers.", "quantifier": "all finite directed graphs", "why_tests_cant": "all graphs", "anchors": ["src/graph.rs: find_strongly_connected_components, topological_sort_sccs"]}
{"id": "C29", "title": "Import-cycle detection", "statement": "The cycle search reports a cycle iff one is reachable from the start node, and what it reports is a genuine cycle of the graph.", "quantifier": "all finite directed graphs", "why_tests_cant": "all graphs", "anchors": ["src/graph.rs: find_cycle_from"]}
{"id": "C30", "title": "Dominance queries", "statement": "The dominance query answers true iff every path from the entry to the second node passes through the first (both being reachable).", "quantifier": "all finite rooted directed graphs", "why_tests_cant": "all graphs, irreducible ones included", "anchors": ["src/mir/dominance.rs"]}
{"id": "C31", "title": "Bounds-check elimination is sound", "statement": "When the optimizer removes an array bounds check, the index it leaves unchecked is in range for every run of the program, for all integer inputs (wraparound included).", "quantifier": "all integer inputs and all fact sets derivable from guards", "why_tests_cant": "wraparound corner inputs", "anchors": ["src/mir/pass/relations.rs: Affine, Predicate", "src/mir/pass/bounds_check.rs"]}
{"id": "C32", "title": "Exclusive access", "statement": "When the borrow checker accepts a call, the places passed by mutable reference occupy disjoint storage, whatever the run-time indices.", "quantifier": "all argument paths and all run-time index values", "why_tests_cant": "all paths x all dynamic indices", "anchors": ["src/hir/borrow_checker.rs: do_paths_overlap, check_elaborated_arguments"]}
{"id": "C33", "title": "Uninhabited scrutinee", "statement": "A match (or match arm) is allowed to be omitted because its type is uninhabited only if that type really has no value.", "quantifier": "all types, recursive ones included", "why_tests_cant": "all recursive type graphs", "anchors": ["src/hir/match.rs: is_definitely_uninhabited"]}
{"id": "C34", "title": "Recursive type equations", "statement": "Every recursive type accepted by inference has a finite value and only recurses below a variant payload; equations that are rejected violate one of these rules.", "quantifier": "all type equations", "why_tests_cant": "all type graphs", "anchors": ["src/types/recursive_equation.rs"]}
{"id": "C35", "title": "Sandbox limits and poisoning", "statement": "With a fuel limit of n at most n fuel checks succeed; with a call-depth limit of d no check lets execution go deeper than d; once a sandbox violation or a failure during cleanup has occurred the executor is poisoned: it runs no more guest code and every later entry reports the same cause, while an ordinary source failure leaves it usable.", "quantifier": "all event histories", "why_tests_cant": "all histories and nestings of failures during cleanup", "anchors": ["src/eval.rs: EvalCtx::check_fuel, check_call_depth, cleanup_after_error, poison, ensure_runnable", "src/execution.rs"]}
{"id": "C36", "title": "Stale modules are never executed", "statement": "After any history of compilations and source updates, a module whose own or any dependency's last compilation failed is reported stale and refuses to run; recompiling a fixed module refreshes all modules affected by it; source versions change exactly when the text changes and compilation revisions increase at every attempt.", "quantifier": "all compile/update histories and dependency graphs", "why_tests_cant": "unbounded histories", "anchors": ["src/compiler/session.rs", "src/compiler/pipeline.rs"]}
{"id": "C37", "title": "Affected modules", "statement": "The modules reported as affected by a change are exactly the transitive reverse dependencies, each listed once.", "quantifier": "all dependency graphs, cycles included", "why_tests_cant": "all graphs", "anchors": ["src/compiler/session.rs: get_module_reverse_deps, get_modules_affected_by"]}
{"id": "C38", "title": "Variant tag identities", "statement": "Within a session a variant tag name always gets the same identity, different names get different identities, and the identity maps back to the name.", "quantifier": "all interning histories", "why_tests_cant": "unbounded histories", "anchors": ["src/compiler/session.rs: VariantTags"]}
{"id": "C39", "title": "Termination proofs of the optimizer", "statement": "A function the optimizer marks as certain to return does return for every argument (given that host functions return).", "quantifier": "all modules (call graphs and control-flow graphs) and all executions", "why_tests_cant": "all programs and executions", "anchors": ["src/mir/pass/will_return.rs"]}
{"id": "C40", "title": "Boolean materialization preserves behaviour", "statement": "Replacing a branch that stores true/false on its two arms by a direct store of the (possibly negated) condition does not change the result of any execution.", "quantifier": "all functions and all executions", "why_tests_cant": "all programs", "anchors": ["src/mir/pass/peephole.rs"]}
{"id": "C41", "title": "Optimization budgets", "statement": "Module generation limits are at least their floor, grow linearly with the declared bodies, are monotone and never overflow.", "quantifier": "all module sizes", "why_tests_cant": "all 64-bit sizes", "anchors": ["src/mir/pass/budget.rs"]}
{"id": "C42", "title": "Generated names are distinct", "statement": "Distinct type variables are printed with distinct names and distinct indices with distinct subscripts.", "quantifier": "all pairs of indices", "why_tests_cant": "unbounded indices", "anchors": ["src/format.rs: type_variable_index_to_string_latin/greek, type_variable_subscript"]}
{"id": "C43", "title": "Tables of named entries", "statement": "After any history of insertions, anonymous insertions, replacements and truncations of a module's definition table or the session's module table, ids keep denoting the same entries, a name denotes the last entry that has it, replacing keeps the id and returns the old value, and every name in the table can be looked up.", "quantifier": "all histories, all names and values", "why_tests_cant": "unbounded histories", "anchors": ["src/module/id.rs: NamedIndexed"]}
{"id": "C44", "title": "Sandboxed executions end", "statement": "With a fuel limit and a call-depth limit, every sequence of calls made by the host ends: control-flow cycles consume fuel and recursion, which the compiler guards by depth checks, is bounded.", "quantifier": "all programs whose control-flow cycles cross a fuel check and whose recursion crosses a depth check, all limits, all call sequences", "why_tests_cant": "termination for every program and input", "anchors": ["doc/runtime-sandboxing.md", "src/eval.rs: check_fuel, check_call_depth", "src/mir/interpreter.rs: run_loop", "src/hir/emit_functions.rs: wrap_body_with_call_depth_check_if_recursive", "src/desugar/module.rs: module_implementation_sccs"]}
{"id": "C45", "title": "Block edits of the optimizer keep behaviour", "statement": "The optimizer's clean-ups of a function body (removing unreachable blocks, laying blocks out in reverse postorder, appending a block to its only predecessor) never fail and change no execution: the same operations run in the same order, with the same results, failures and resource use; and they leave what they promise (only reachable blocks; dominators before the blocks they dominate; nothing left to append).", "quantifier": "all function bodies whose jumps stay inside them, all programs containing them, all calls, memories and limits", "why_tests_cant": "every control-flow graph, including loops, self-loops, shared and unreachable blocks", "anchors": ["src/mir/edit.rs: remove_unreachable_blocks, reorder_blocks_in_reverse_postorder, merge_blocks_into_predecessors, mergeable_successor"]}
{"id": "C46", "title": "Strings are sequences of user-perceived characters", "statement": "Iterating over a string yields exactly its user-perceived characters in order, and they concatenate to the string; slicing takes the characters between two positions (negative positions count from the end, positions are clamped) and never fails; cutting a string at any position and concatenating gives it back.", "quantifier": "all strings, all segmentations into clusters and all positions", "why_tests_cant": "arbitrary clusters and positions", "anchors": ["src/std/string.rs: StringIterator, slice, normalize_index, grapheme_count"]}
{"id": "C47", "title": "Serialization gives values back", "statement": "Serializing a value of any serializable type to a data value and deserializing it at the same type gives the value back (equal, and identical if it contains no set or map), also after a passage through the data text format or JSON; deserializing an arbitrary data value always ends, with a failure or with a value of the requested type.", "quantifier": "all types (tuples, records, variants, arrays, sets, maps, recursive named types), all values of them and all data values", "why_tests_cant": "unbounded types, nesting and values, and data that was not written for the type", "anchors": ["src/std/serde.rs: derive_impl (Serialize, Deserialize)", "src/std/prelude/serde_impl.fer"]}
{"id": "C48", "title": "Type inference solves the type equalities", "statement": "When the type equalities of a program are accepted, the types found make both sides of each agree (arguments contravariantly, mutability at least as asked, equal where asked to be the same); when some types for the unknowns satisfy them all, they are accepted and the types found are the most general; solving always ends, without panic.", "quantifier": "all lists of type equalities and inequalities over type and mutability variables, and all union-find root choices", "why_tests_cant": "unbounded types and constraint lists; most generality quantifies over all solutions", "anchors": ["src/types/type_inference/unify.rs: unify_sub_or_same_type, unify_type_variable, unify_mut_must_be_at_least_or_equal", "src/types/type_inference/substitution.rs: normalize_type"]}
{"id": "C49", "title": "Accepted trait implementations do not overlap", "statement": "When an implementation of a trait is accepted, no implementation already declared for the trait applies to types it applies to: of the implementations of a trait at most one applies to given types, so the meaning of a method call does not depend on the order in which implementations are searched.", "quantifier": "all sets of implementations, with any type variables, outputs and where-clauses, in any order of declaration", "why_tests_cant": "overlap ranges over all instantiations of the variables of both implementations and all derivations of their where-clauses", "anchors": ["src/types/coherence.rs: check_trait_impl, impls_overlap, blanket_impls_overlap, constraints_may_be_satisfiable"]}
{"id": "C50", "title": "Destructuring binds each name to its part", "statement": "let and for patterns evaluate the source once, bind each name to the part of the value at its place (with its own mutability) and leave all other names alone; a pattern naming a variable twice is refused, and a struct pattern is accepted exactly when it names each field once (or some fields with ..).", "quantifier": "all patterns of any depth, all values that have the parts, all source expressions and local variables", "why_tests_cant": "patterns nest without bound and the expansion depends on the kind of the source expression and on which names are bound where", "anchors": ["src/desugar/patterns.rs: desugar_let_exprs, expand_let_pattern, maybe_materialize_destructuring_source, validate_record_struct_pattern"]}
{"id": "C51", "title": "A match runs the arm of the value", "statement": "A match that compiles evaluates its scrutinee and then runs exactly one body: the one of the arm whose literal equals the value, or whose tag is the tag of the value, with every name of the pattern bound to its element or field of the payload; the default runs only when no arm matches. A match without default compiles only if every value of the type has an arm, and a match with one fitting arm per value compiles.", "quantifier": "every scrutinee type, list of arms, presence of a default, and value of the type", "why_tests_cant": "The last arm of a match without default runs without any test, so a hole in the exhaustiveness check silently runs the wrong arm; the check covers nested tuples and records and enumerations with uninhabited variants, whose combinations tests only sample.", "anchors": ["src/hir/match.rs: infer_match, check_literal_patterns, named_enum_variant_tys_with_uninhabited_omissions", "src/types/type.rs: all_values, cartesian_product_values", "src/types/type_inference/unify.rs: coverage constraints, records and variants", "src/parser/helpers.rs: record_literal_pattern", "src/emit_mir.rs: Case", "src/hir/value.rs: try_matches_runtime_value"]}
{"id": "C52", "title": "Dropping overwritten stores changes nothing", "statement": "The optimization that removes stores to local variables which are overwritten before they are read ends on every function, removes exactly the stores of values without ownership to private cells that no path of the control flow reads before overwriting, and every call of the rewritten function (and of every function of a program all of whose functions are rewritten) gives the same result, error or stop with the same effects as before.", "quantifier": "every function body that passes the verifier, every parameter, world, callee behaviour and path, loops included", "why_tests_cant": "The removal is decided by a backward fixpoint over the control flow graph; a missing edge, a forgotten read position or a dropped ownership guard shows only for particular combinations of loops, branches and operand positions.", "anchors": ["src/mir/pass/dead_store.rs: remove_overwritten_trivial_copy_stores, transfer_block, whole_place_write_index, is_exact_place_read", "src/mir/interpreter.rs: run_loop, exec_operation, exec_store, exec_memcpy, exec_move", "src/mir/verify.rs: stored place types"]}
{"id": "C53", "title": "Forwarding stored booleans to the branch that tests them changes nothing", "statement": "The optimization that sends a block which stores a known boolean straight to the side of the branch that later tests it leaves every call of the function (and of every function of a program so rewritten) with the same result, error, stop and effects, in no more steps; whenever it rewrites a function, at least one test of a flag can no longer be reached.", "quantifier": "every function body with single definitions, every parameter, world, callee behaviour and path, loops included", "why_tests_cant": "The rewriting duplicates cleanup along paths found by a backward search, for several joins at once; a wrong polarity, a missed reaching store, a cleanup replayed in the wrong order or an overlooked use shows only for particular control flow shapes.", "anchors": ["src/mir/pass/branch_forward.rs: forward_boolean_branches, census_uses, plan_join, reaching_stores, read_boolean_flag", "src/mir/pass/budget.rs: FORWARD_BOOLEAN_BLOCKS, FORWARD_BOOLEAN_REPLAYED_OPERATIONS", "src/mir/interpreter.rs: run_loop, exec_comp_eq, exec_load"]}
{"id": "C54", "title": "Testing a boolean where it was computed changes nothing", "statement": "The optimization that makes a branch or a comparison read the register that computed a boolean, through the cells it was stored in and the negations applied to it, leaves every call of the function (and of every function of a program so rewritten) with the same result, error, stop and effects, in the same number of steps. Its walk always ends, and a branch on a negated register is always rewritten.", "quantifier": "every function body whose definitions are single and precede their uses, every parameter, world, callee behaviour and path, loops included", "why_tests_cant": "Whether a store reaches a read depends on dominance and on the order inside a block, and polarities accumulate along chains of any length through several cells and loops; a wrong parity, an aliased or rewritten cell or a non-boolean taken for one shows only for particular shapes.", "anchors": ["src/mir/pass/negation.rs: forward_boolean_negations, Resolver, forwardable_cells", "src/mir/dominance.rs: Dominance", "src/mir/interpreter.rs: run_loop, exec_compare_equal, exec_load"]}
{"id": "C55", "title": "Keeping one of several equal blocks changes nothing", "statement": "The optimization that keeps one of several blocks doing the same up to the names of the values they compute, skips blocks that only jump, and makes a branch with equal sides a jump, leaves every call of the function (and of every function of a program so rewritten) with the same result, error, stop and effects. Of two blocks with equal code leading on to later blocks, at least one is no longer reached.", "quantifier": "every function body, every hash function, parameter, world, callee behaviour and path", "why_tests_cant": "Two blocks are compared while later ones have already been replaced, hash collisions decide which are compared at all, and a value computed in a merged block may be read elsewhere; a difference shows only on a path through the dropped block.", "anchors": ["src/mir/pass/tail_merge.rs: simplify_tails, blocks_alpha_equivalent, block_fingerprint, reachable_blocks, fold_empty_forwarding_blocks, fold_empty_terminal_successors"]}
{"id": "C56", "title": "Compiled code cleans up exactly as the reference evaluation does", "statement": "Compiling a function body to a control-flow graph keeps its control flow and its cleanup: every call of the graph performs the same actions in the same order and ends as the direct evaluation of the body does (returned, failed, failed during cleanup, stopped, or running for ever), whichever actions fail. When a call returns or fails, every local that needs a drop has been dropped, and the locals of a block are dropped once each, the last declared first, whether the block ends normally, by a failure or by a return.", "quantifier": "every body with blocks, cases, loops, breaks, continues, returns and scoped accessors, nested to any depth; every behaviour of its actions, including which of them fail at which moment; every state", "why_tests_cant": "Cleanup code is duplicated on every way out of every scope, with error pads shared between fallible operations and memoised per scope; a missing or doubled drop shows only when one particular operation fails inside one particular nesting.", "anchors": ["src/eval.rs: eval_block_with_cleanup, eval_with_yielded, eval_accessor_until_yield, eval_loop, eval_case, cleanup_after_error", "src/emit_mir.rs: lower_value_into, enter_scope, exit_scope, emit_unwind_drops, allocate_pad, fill_pending_pads, lower_with_yielded_enter, invoke", "src/mir/builder.rs: append_operation, set_terminator"]}
{"id": "C57", "title": "Number literals denote the number they spell", "statement": "An integer literal in base ten, two or sixteen is the integer its digits spell, or a compile error if it does not fit; a float literal is the number its text spells; what follows a literal is not swallowed.", "quantifier": "every sequence of digits, in every base, followed by any text", "why_tests_cant": "Whether a literal is read right depends on where the token ends, on leading zeros and on the boundary of the type, for every possible length.", "anchors": ["src/parser/parser.lalrpop: IntValue, UIntValue, NonNamedSuffixTail", "src/parser/helpers.rs: parse_num, parse_bin_int, parse_hex_int, proj_or_float"]}
{"id": "C58", "title": "Format strings show each variable in its place", "statement": "A format string is cut in exactly one way into holes, which are names in braces, and the text between them. Its value is the text as written with each hole replaced by the text of the variable, in order. A hole that names no local variable is refused, and the error points at the name. Braces around anything but a name are text.", "quantifier": "every text, every set of local variables, every value of them, every position of the literal in the source", "why_tests_cant": "Holes may follow each other, stand at either end, nest in braces, contain letters of any script; the cut must be right for every text.", "anchors": ["src/desugar/format_string.rs: emit_format_string_ast, variable_to_string", "src/parser/helpers.rs: formatted_string"]}
{"id": "C59", "title": "Recursive type declarations are accepted exactly when they are well founded", "statement": "A module's type declarations are accepted exactly if no cycle of names avoids every sum, every recursive group has an alternative that leaves the group, and generic declarations are applied within their group to their own parameters. The error names a declaration at fault. Accepted declarations can be unfolded outside of sums in finitely many steps, and each is lowered once, after everything it names outside of its group. Types that are accepted have finite values and rejected ones have none.", "quantifier": "every list of type aliases and definitions, generic or not, with every nesting of types, and every iteration order of hash sets", "why_tests_cant": "Groups of mutually recursive declarations have any size and shape, and the verdict depends on cycles of the graph and on which alternative of which sum leaves the group.", "anchors": ["src/desugar/module.rs: build_named_type_graph, validate_type_cycle, TypeCycleInfo::collect_from_type, NamedTypeGraph::desugar, is_regular_recursive_generic_application"]}
{"id": "C60", "title": "Imports and names mean what the program says", "statement": "A list of use directives, however nested, is accepted exactly when every name it lists is public in a compiled module, is neither defined locally nor imported twice, and every starred module exists; the uses recorded are then exactly those listed, otherwise the first offending directive is reported. A plain name of a given kind means the module's own definition, else the one imported by name, else the one of the only starred module that offers it, and it is an error exactly when two stars offer it; a qualified name means what its module lets this one see; private definitions of other modules are never found. A plain method name means the method of the only trait in scope that declares it. Adding a definition to another module never silently changes what a name means.", "quantifier": "all sets of modules, all use trees, all scopes and import tables in any hash order, all names and paths", "why_tests_cant": "the result depends on every module's table and on the iteration order of hash maps; tests fix one project and one order", "anchors": ["src/desugar/import_resolver.rs: resolve_imports, resolve_one, register_import", "src/module/mod.rs: find_member, is_symbol_accessible_from, is_trait_accessible_from", "src/module/module_env.rs: find_member_by_path, get_trait_method, get_unqualified_trait_method", "src/types/type_inference/expr.rs: Identifier"]}
{"id": "C61", "title": "Stored types mean what was stored, and equal types get one identifier", "statement": "Types are stored from a list of kinds that may refer to each other and to types stored before. Storing never fails on kinds whose field names are distinct and whose references exist, gives each kind an identifier whose unfolding is the (possibly infinite) type the kind describes, keeps the meaning of every earlier identifier and adds nothing else. Two identifiers are equal exactly when they stand for the same type, however the type was written; storing a known type finds its identifier and adds nothing. Storing the same kinds again later gives the same identifiers; the order of fields and alternatives does not matter.", "quantifier": "all histories of stored kinds, all recursive groups of kinds, any comparison used to sort a group and any hash order", "why_tests_cant": "equality of infinite types over every possible history of the type store; tests see a few groups in one order", "anchors": ["src/types/type.rs: TypeUniverse::insert_types, insert_non_recursive_kind, find_world_isomorphism, type_kinds_match_with_mapping, get_type_data", "src/graph.rs: find_strongly_connected_components, topological_sort_sccs"]}
{"id": "C62", "title": "Recursive type aliases mean what is written", "statement": "A group of type aliases that refer to each other is lowered to stored types whose unfolding is exactly the one written: each alias, variant, tuple, record and function of the group stands for itself, references to aliases of the group lead back to them, and types known before keep their meaning. The meaning is unique: any two types with the meaning of an alias unfold alike. Duplicated alternatives or fields are reported.", "quantifier": "all groups of recursive aliases over all reachable type stores", "why_tests_cant": "the meaning of a recursive alias is an infinite type; tests print or match a few levels of a few aliases", "anchors": ["src/desugar/types.rs: RecursiveTypeBuilder (new, finish, store_kind, desugar_type, desugar_path_without_args)", "src/desugar/module.rs: desugar_recursive_aliases_in_scc"]}
{"id": "C63", "title": "Merging, dropping and narrowing specialized copies changes no behaviour", "statement": "The specialized copies of generic functions a module carries can be merged when their bodies are identical, dropped when nothing reaches them, and relieved of the evidence parameters they never read, without changing what any function of the module does: each function still performs the same operations on the same values, in the same order, calling copies that behave like the ones it called. Every step succeeds on well-formed artifacts, whatever the digest used to find candidates; after merging no two copies of the same function read the same; after dropping every copy left is reachable.", "quantifier": "all compiled artifacts of a module, all digests (including colliding ones)", "why_tests_cant": "merging one copy can make others identical or change the numbers of all the rest; tests compile a few modules and cannot force digest collisions", "anchors": ["src/mir/pass/share_specializations.rs: share_identical_specialization_bodies, group", "src/mir/pass/prune_specializations.rs: prune_unreachable_specializations", "src/mir/pass/dead_evidence.rs: narrow_dead_evidence", "src/mir/pass/specialization_table.rs: rewrite"]}
{"id": "C64", "title": "Inlining changes no behaviour", "statement": "Replacing direct calls with the operations of their callees never changes what a program does: started from any entry with any arguments and any state, for any number of steps, the program with its calls inlined is still running exactly when the original is, and ends with the same result, the same failure or the same poisoning error, and the same memory, unless the original panics. This covers failures inside inlined callees, cleanup code, failures during cleanup, local storage, and calls inlined in every function of a program at once. The inliner itself never panics on verified bodies, a function never grows past its original size plus its budget, and a call of a function that must not be inlined is kept.", "quantifier": "all programs of verified bodies, all sets of functions that must not be inlined, all entry points, arguments, states and step counts, and all meanings of the individual operations that treat a place and a value standing for that place alike", "why_tests_cant": "an inlined body meets every combination of registers, constants, error edges and storage scopes of its caller; tests run a few programs to the end and compare results", "anchors": ["src/mir/pass/inline.rs: inline_function, plan_inlinings, cleanup_blocks, check_inlinable, inline_at, Copier", "src/mir/edit.rs: FunctionEdit", "src/mir/interpreter.rs: run_frame, run_loop, exec_call, exec_resolved_call, place_operand"]}
{"id": "C65", "title": "Types written to a snapshot come back as the same types", "statement": "A snapshot of any set of types, taken while more types are being stored, succeeds exactly when every native type met has a registered name, and then lists each type met exactly once. Reading it into any store, of this process or another, never fails: every type asked for comes back as the same (possibly recursive) type, different types stay different, types already there keep their meaning and nothing else is added. Read back where the types still exist it gives the very identifiers and adds nothing, and a snapshot of the restored types is the same snapshot. A graph with a reference out of range or an unknown native name is reported as an error.", "quantifier": "all histories of storing types, all sequences of requests interleaved with them, all catalogs of native names, all stores to read into and all orders of hashing and of addresses in either process; for errors, all graphs", "why_tests_cant": "recursive types make the graph cyclic, and restoring goes through the whole type store, whose content and hash orders differ in every process", "anchors": ["src/compiler/snapshot/type_graph.rs: SnapshotTypeGraphBuilder::capture, finish, SnapshotTypeGraph::materialize", "src/compiler/snapshot/native.rs: NativeTypeCatalog", "src/types/type.rs: store_types"]}
{"id": "C66", "title": "The shared cache of the compiled standard library survives any schedule and crash", "statement": "Any number of processes load or build the compiled standard library at once. Whatever operation on the file system fails, whoever dies and even if the power fails, the cache file is at every moment absent, as it was found, or a whole file made by a process and known to restore; a file is accepted exactly when it is what would be written for its payload. Every process that is not killed returns within a fixed number of its own steps, with a library compiled on the spot, built, or restored from such a file. Only one process at a time builds or writes, and the lock never outlives its holder. If nothing fails at most one process builds, nobody builds when the cache restores, all that load get the same library, and nobody gives up waiting before two minutes. Temporary files are left only by processes that die.", "quantifier": "all numbers of callers, all interleavings of their file system operations, all failures, deaths and power losses at any point, all contents found in the cache directory, all names of temporary files", "why_tests_cant": "the outcome depends on the interleaving of several processes and on the point where one of them dies", "anchors": ["src/compiler/snapshot/cache.rs: load_or_build_std, try_load, publish_atomically, cache_file_bytes, checked_payload, mark_cache_unusable"]}
{"id": "C67", "title": "A for loop, an integer literal and an assignment to an element of a property mean what is written", "statement": "The compiler rewrites for loops into loop/match over next, integer literals into from_int calls, and assignments to an element of a property into a read, an update and a write back. The rewritten program gives the same value, break, return or error, the same variables, properties and output as the program read directly: a for loop runs its body once per item of its sequence, in order, with break, continue, labels and return going where they are written, and nested loops not disturbing each other. No generated variable remains visible or changes a generated variable of an enclosing construct. The conditions are that the program does not use the names next, iter and from_int for its own variables and functions, and that what is assigned to an element of a property does not itself write that property; both are shown to be needed.", "quantifier": "all programs of the modelled language (nested loops, blocks, matches, labelled loops, calls of module functions, recursion), all libraries with iterators, all starting states, all bounds on iterations and call depth", "why_tests_cant": "Tests run a few loops; a rewriting is wrong for one nesting of loops, labels, shadowed names or side effects among infinitely many.", "anchors": ["src/desugar/expr.rs: desugar (Literal, Assign, Index, ForLoop), desugar_property_index_assignment", "src/parser/helpers.rs: for_loop", "src/desugar/mod.rs: fresh_generated_local", "src/types/type_inference/expr.rs: Apply, prepare_static_call_target", "src/eval.rs: eval_assign"]}
{"id": "C68", "title": "Removing unused computations does not change what a function does", "statement": "Optimisation removes comparisons, loads and tags nobody reads, calls without effects that are known to return and whose result nobody reads, local storage that is only written, values that are built once and then only dropped, and places nobody derives anything from. The function without them has the same events, result or failure, and the same effects on its caller's storage, after any number of steps, whether it ends or not; nothing that is left refers to something removed. The passes may run in any order and any number of times, and do not depend on the order of hash maps. After a pass nothing it looks for is left, chains included; an allocation is removed exactly if it is only written with plain values, or built at one place and otherwise only dropped.", "quantifier": "all functions with one definition per register, all control flow, all operations that keep the stated contract, all callers and callees behind them, all orders of hash maps, all numbers of steps", "why_tests_cant": "Tests compile a few programs; a wrong use count or a missed role of an operand removes something needed in one function out of infinitely many.", "anchors": ["src/mir/pass/dce.rs: remove_dead_results, remove_dead_trivial_results, remove_dead_proven_calls, remove_dead_storage_impl, DceCensus", "src/mir/operation.rs: result_requires_consuming_use", "src/mir/terminator.rs: operands"]}
{"id": "C69", "title": "Dropping duplicate stack marks changes neither results nor memory use", "statement": "Optimisation drops a stack mark taken where another mark already records the same height of the stack, and a return to the height the stack already has. The function then computes the same, ends the same way, and every operation that is left finds exactly as many cells on the stack as before, so addresses, the peak memory use and the point where the cell limit is reached do not change. Exactly those marks and returns are dropped that are redundant on every path from the entry, and the analysis always ends.", "quantifier": "all verified functions, all control flow with loops and failures, all operations that keep the stated contract on the number of cells, all executions that keep the stack discipline, all numbers of steps", "why_tests_cant": "Tests run a few functions; whether two marks are equal on every path, and stay equal through loops until they are used, depends on control flow of any shape.", "anchors": ["src/mir/pass/stack_region.rs: remove_redundant_stack_markers, analyze, step, intersect, resolve", "src/mir/pass/dce.rs: may_leave_frame_storage", "src/mir/interpreter.rs: StackSave, StackRestore, restore_stack, exec_end_project", "src/mir/verify.rs"]}
{"id": "C70", "title": "Dropping stack regions that reclaim nothing changes neither results nor memory use", "statement": "Optimisation drops the two marks of a stack region - the save and the return - when both stand in one block, the return is the only one to that mark, and nothing between them leaves a cell behind except inner regions that take it back. Exactly those pairs are dropped, also when the cells were only allocated by code that is removed itself. The function then computes the same and every operation that is left finds as many cells as before, and no return is left that names a mark whose save is gone.", "quantifier": "all verified functions, all sets of operations removed before, all nestings of regions, all operations that keep the stated contract on the number of cells, all executions that keep the stack discipline, all numbers of steps", "why_tests_cant": "Tests run a few shapes of nested regions; overlapping regions, regions left open at the end of a block and code removed between the marks combine without bound.", "anchors": ["src/mir/pass/dce.rs: remove_empty_local_stack_regions, restore_uses, may_leave_frame_storage, remove_dead_storage_impl", "src/mir/interpreter.rs: StackSave, StackRestore, restore_stack"]}
{"id": "C71", "title": "Float arithmetic is real arithmetic, rounded once and saturated", "statement": "Every operation on floats gives a finite float. Sum, difference, product and quotient are the exact result rounded to the nearest double (ties to even) and saturated at the largest float; opposite and absolute value are exact, the square root is the rounded one. Division fails exactly when the divisor is zero of either sign, the square root exactly on negative numbers. Equality and order are those of the numbers, two floats are equal exactly when their difference is zero, and adding keeps the order even on overflow. floor, ceil, round (halves away from zero) and truncation give the exact integer, saturated; an integer becomes the nearest float, exactly up to 2^53. Results of the mathematical library are kept when finite and otherwise saturate or fail as stated, and the host never panics unless the library gives NaN for a saturating function. The sign of equal floats is the same.", "quantifier": "all pairs of finite doubles, all 64-bit integers, all results of the functions of the mathematical library", "why_tests_cant": "There are 2^128 pairs of doubles; overflow, underflow, ties and signed zeros make up a vanishing part of them.", "anchors": ["src/std/math.rs: Float::new, Float::new_saturating, equal_float, compare_float, add_float, sub_float, mul_float, div_float, sqrt_float, pow_float, neg_float, abs_float, signum_float, round_float, floor_float, ceil_float, isize_to_float, saturating_cast_int_to_float, saturating_trunc", "src/std/ordering.rs: compare"]}
{"id": "C72", "title": "Moving a loop-invariant call in front of its loop keeps the behaviour", "statement": "Optimisation moves a call out of a loop when the call has no effects, is known to return, reads only storage that the loop does not write, and is alone in writing its result, which only the loop uses. The function then shows the same events in the same order, ends in the same way and leaves the storage of its caller the same, for every number of rounds of the loop, also none, and however the loop is entered and left. The call lands in the one block the loop is entered from, after everything it reads is defined and written, and before every stack mark that the loop returns to.", "quantifier": "all verified functions, all loops and their nestings, all sound dominance analyses, all orders in which loops are tried, all meanings of the operations that keep the stated contract, all initial stores, all numbers of steps; one move at a time", "why_tests_cant": "Tests run a few loops; nested loops, loops with several exits, places reached through chains of subfields and allocations left outside the loop combine without bound, and a wrong move only shows for some stores.", "anchors": ["src/mir/pass/licm.rs: PlaceRoots, eligible_call, find_hoist, natural_loops, definitions, writes_in, record_writes, root_used_outside, insertion_point, apply_hoist", "src/mir/pass/dataflow.rs: call_operands, Root"]}
{"id": "C73", "title": "Comparison operators, minimum, maximum and clamp follow the order of the values", "statement": "For every type whose `cmp` tells an order, `<`, `<=`, `>`, `>=` say what the order says, fit together and chain; `min` and `max` give one of their two values, before respectively after both, and when only equal values compare as equal they give the two values between them; `clamp` fails exactly when its bounds are in the wrong order, and otherwise gives the value if it lies within the bounds and else the bound it passed. The built-in `cmp` of integers, floats and strings tells an order: that of the numbers, and for strings that of a dictionary over Unicode characters. `!=` is the negation of `==` and agrees with the order.", "quantifier": "all types and all total orders on them, also with different values that compare as equal; all values; all integers, floats and strings of any length", "why_tests_cant": "The functions are generic over user-defined orders, and byte-wise comparison of strings agrees with the order of characters only by a property of the encoding over all pairs of characters.", "anchors": ["src/std/prelude/comparison.fer: ne, lt, le, gt, ge, min, max", "src/std/prelude/core_impls.fer: clamp", "src/std/ordering.rs: compare", "src/std/math.rs: compare_float, equal::<Int>", "src/std/string.rs: compare_string, equal_string"]}
{"id": "C74", "title": "A type shown by the name of an alias is that alias with the arguments shown", "statement": "When messages show a type by the name of a generic alias, the alias is declared and, with the arguments shown, it is the type, all the way down and also for recursive types; an argument is left open only for recursive aliases. The search always ends. A type that is an instance of a declared alias gets an alias name, no candidate has more known arguments than the one chosen, of those that leave the same arguments open the shortest name is shown and then the first in the order of a dictionary, and the choice does not depend on the order of the declarations.", "quantifier": "all type graphs, also cyclic ones, all lists of aliases with distinct names and all their orders, all types", "why_tests_cant": "Matching keeps a set of pairs it has seen and treats them as matching, which is right only because no failed pair is ever looked at again; recursive types give unboundedly many shapes of circles, and the ranking must be a total order on all candidates.", "anchors": ["src/module/type_alias_name.rs: find_generic_alias_name_with, render_generic_alias_name_with, match_alias_type_inner, GenericAliasScore"]}
{"id": "C75", "title": "The name shown for a type is one under which the current module finds it", "statement": "When a message shows a type by a name, some module declares an alias of that name which, with the arguments shown, is the type. Written in the current module, with the path shown in front or without one, the name denotes this alias. Every type with an alias without parameters in some module is shown by a name, and the names of the current module come first and are written without a path. When only generic aliases of other modules are left, one with the most known arguments is shown, whatever the order of the modules.", "quantifier": "all sets of modules and their aliases, all imports by name and of everything, all types", "why_tests_cant": "Whether the path can be left out depends on the combination of local names, imports by name and imports of everything.", "anchors": ["src/module/module_env.rs: type_alias_name, type_alias_name_with", "src/module/mod.rs: Module::uses", "src/types/type.rs: TypeAliases::set, get_name"]}
