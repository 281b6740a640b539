# Formal model of ferlium in Rocq — design

Source modelled: `/repo` (enlightware/ferlium at the pinned commit). The model lives in
`rocq/theories/`. The properties are in `properties.jsonl`, the status of each in `MANIFEST.json`.

## Layout

For each area `X` of the code there are up to four files:

| file | contents |
|---|---|
| `XModel.v` | Gallina transcription of the Rust / Ferlium code, function by function, each definition citing file and lines. No proofs. |
| `XSpec.v`  | the small independent specification (plain lists, sets as predicates, `Z` arithmetic, paths in graphs...). Does not use the model's helpers. |
| `XProofs.v`| invariants, lemmas. |
| `XProps.v` | the property theorems only, each with `Print Assumptions`, and beside each an `Example` showing a concrete non-trivial instance of its hypotheses. |

Small areas merge the spec into the props file, above the theorems.

Conventions: machine integers are `Z` with explicit wrap-around (`wrap64`), `u64` words are `Z`/`N`
with explicit `mod 2^64`; a Rust panic is an explicit error value (`Panic`); a source failure of the
language is a different explicit error value; a loop whose termination is not structural takes fuel
and returns an explicit `OutOfFuel`, which a theorem then excludes. Where the English property is
false of the faithful model the theorem is called `..._refuted` and exhibits the witness, and the
strongest true version is proved beside it.

## Plan per property

| id | what is modelled | how it is proved |
|---|---|---|
| C01 | native int functions of `std/math.rs` on `Z` with `wrap64` | arithmetic (`lia`, `Z.mod` lemmas) |
| C02 | `idiv`, `rem`, `idiv_euclid`, `mod`, with Rust's overflow panic explicit | case analysis, `Z.quot/rem`; refutation witness (MIN,-1) |
| C03 | shifts, rotates, single-bit operations via `Z.testbit` | bitwise extensionality |
| C04 | `Hasher` words and the eq/hash pair of each primitive, floats as bit patterns | structural; refutation witness 0.0 / -0.0 |
| C05 | `UnorderedHasher` | commutativity and `Permutation` induction |
| C06–C10 | `hash_collections.fer` over an arbitrary element type with eq/hash | table invariant by induction on operation lists, refinement to association list / predicate set |
| C11–C13 | ring buffer of `array_type.fer`/`array.fer` over slots `option A` | representation relation to `list A`, simulation |
| C14 | merge sort over arrays with the source/target alternation | induction on range length; sorted + permutation + stability (as filter-by-class equality) |
| C15 | range iterators as `next` state machines | induction on remaining length; refutation witness at MAX/MIN |
| C16 | adaptors as state machines over an abstract iterator | coinductive-free: finite unfolding relation, induction |
| C17 | split iterators and `join` | induction |
| C18 | renderer and recursive-descent parser of data text | induction on value size with parser continuation lemma; refutations for the ambiguous shapes |
| C19 | `inspect_string` and `apply_string_escapes` on scalar lists | induction |
| C20 | JSON renderer/parser | as C18 |
| C21 | `push_normalized` with the Hangul part of NFC | refutation witness; partial theorem when the trigger condition is right |
| C22 | `SourceEntry`, `PositionIndexLookup` on UTF-8 byte lists | induction on the character list |
| C23 | `DenseBitSet` three representations | abstraction function to sets of `N`, per-operation refinement |
| C24 | bucket arena with free list | representation invariant (`live` list + `free` list partition), induction on histories |
| C25 | `EffType` inline/heap | canonical-form invariant, set semantics |
| C26 | effect solver with its unification table (`EffSolverModel`), effects reported by the substitution | least-fixpoint meaning of effect types over the table; monotonicity of every operation; per-operation guarantees lifted to histories; refutation witnesses |
| C27–C29 | graph algorithms on successor lists | DFS invariants |
| C30 | Cooper–Harvey–Kennedy + interval numbering | fixpoint characterisation |
| C31 | affine forms, predicates, states, transfer function, joins, worklist and recognition of range loops (`RelModel`, `RelRecognize`), bounds-check decision | concretization of states by valuations of symbols; soundness of transfer, edge refinement and joins; fixed point of the worklist; freshness of definition sites along simple paths; loop invariant of recognized iterators through dominance (C30); refutation witnesses run by an executor |
| C32 | path overlap and the argument check | storage denotation of paths as sets of cells |
| C33 | uninhabited check on type graphs | inductive inhabitation, invariants on `seen` |
| C34 | recursive-equation validation | guardedness and finite-inhabitant semantics |
| C35 | the control part of the MIR interpreter (blocks, calls, projections, failures, cleanup), `EvalCtx` limits and poisoning | closure of context steps, induction on the interpreter |
| C36–C38 | session registry | invariants by induction on histories |
| C39 | `will_return` and the MIR call graph on the bodies of MirModel | Kahn's invariant with edge multiplicities; callees-first fixed point exact; finite call trees return |
| C40 | peephole on a MIR block semantics | simulation |
| C41,C42 | arithmetic of budgets, printers | arithmetic, injectivity |
| C43 | named tables | invariant by induction on histories; refutation for truncate |
| C44 | the same interpreter, static guards, insertion of depth checks | accessibility of nested frames, lexicographic fuel/block measure; SCC correctness; refutation through lambdas |
| C45 | the block edits of `FunctionEdit` on the bodies of MirModel | simulation of the interpreter block chain by block chain; inverse of the renumbering; exact in-degree invariant and worklist exhaustiveness |
| C46 | grapheme iteration and slicing over an arbitrary segmentation | offsets as prefix sums, induction |
| C47 | derived and prelude serialization to data values and back, over recursive types, with the hash tables of C09 and the formats of C18 and C20 | induction over typing for round trips, over data size and rank of named types for reading |
| C48 | unification of types and mutabilities over a table of bindings, normalisation by lookups, the list of a program's type equalities | invariant: bindings resolve in order; induction on fuel for agreement and for every solution factoring through the table; measure (unbound variables, size) for termination |
| C49 | the check of a new implementation against the visible ones: unification of inputs and outputs, search whether the demands of both can hold together | completeness of the search by induction on fuel: a substitution under which both apply is extended over the fresh variables and kept a solution of the table (C48) |
| C50 | expansion of a pattern into statements with generated variables, and the execution of statements over named locals with effects | induction on patterns: the statements run, add only names of the pattern and fresh ones, and each name is found with its part; sortedness for struct fields |
| C51 | Types, literal and variant patterns, enumeration of values, duplicate and coverage checks, payload expectations, choice of the default, tests at run time and bindings. | The enumeration is proved to be exactly the values of the type without repetition; accepted matches are proved to run the unique arm that matches and to bind the names to the right parts; matches with one right arm per value are proved accepted; the only panic is a repeated field. Partial: record patterns are checked field by field without their number; scrutinee of a match with only a default, unknown tags and `Foo {..}` are refuted. |
| C52 | A machine for one activation of a MIR function: registers, stack cells, markers, an abstract world with shared memory and abstract operations; the whole pass: candidates, exclusions, transfer, work list, rewriting. | Simulation: related frames differ only in dead private cells (and in registers whose only move was dropped); the work list is shown to reach a fixpoint within a bound by counting missing registers, and to be the least one, i.e. exactly "some path reads before it overwrites"; a general theorem lifts preservation of bodies to programs by induction on call depth. |
| C53 | The pass up to the block clean-up it ends with: census of uses, plan of a join, backward search for the stores, rewriting of all plans; on the machine of C52. | A flag that is only stored, loaded and compared is owned by its frame (FrameCells), so after the store of a block it holds that boolean or nothing; the search yields a chain of jumps whose restores are replayed; plans of different joins have different sources since jumps are deterministic; simulation up to the registers only the removed branches read. The set of blocks between stores and join is closed under predecessors of the rewritten body, hence unreachable. |
| C54 | The whole pass, with the dominator tree of C30, on the machine of C52. | Points of a body and the relation "has always run before" (no path avoids it), which is transitive and irreflexive on reachable points. Invariant at each point of a run: for every step back whose definition has run, the two registers hold the same boolean up to the polarity; a forwardable cell whose store has run holds nothing or the stored register's value. The block dominance of C30 gives the relation for a store and a read. Walks end since each step goes to a strictly earlier definition (pigeonhole). |
| C55 | The whole pass up to the removal of unreachable blocks and the pruning that follow it (C45), on the machine of C52, with any hash function. | A relation between two runs: the same place up to an equivalence of blocks, and registers renamed one to one between equal blocks. One operation keeps it; leaving a block drops the pairs, since a result of a merged block is read only inside it (from definitions before uses, when there is no loop). The folds only shorten jumps. Completeness: the later of two equal blocks is already a representative when the earlier is looked at. |
| C56 | The tree evaluator and the lowering to a control-flow graph, restricted to control flow and cleanup: everything else is an abstract action that may fail, on any state. | The lowering is shown to write, from every point, a piece of graph that simulates the evaluation of the node, with the pads reserved so far filled at the end; the pads of a scope stack are related to the cleanup that evaluation does on the way out. Both directions by determinism. Dropped locals by running both on a machine with initialization flags. |
| C57 | The integer tokens (longest match), the checked conversion of digits, and the suffix `.index` of an integer literal, which makes a float. | Digits in any base by induction against place values; the text given to the float parser is the source text because numerals without leading zeros are unique. |
| C58 | The regular expression and its leftmost matches, the loop that emits the appends with their spans, and the block run on the strings of C21. | Pieces are characterised without the regular expression: no hole starts inside a text piece. The matches are the holes of the pieces, by induction over them; uniqueness follows because the emitted code determines the pieces. |
| C59 | The collection of references, the two component searches (C28), the checks of one group and of the module, the order of lowering. | The collected sets equal an inductive relation on types; components of the graph equal groups of declarations; direct cycles correspond to cycles of the renumbered graph. Values: sets of declarations closed under what a value must contain have none; descent to other groups and along direct names is well founded. |
| C60 | Use trees with their checks and their panic, definition tables with visibility, lookup by plain and qualified path, trait method lookup with its sort and dedup, the order of kinds for an identifier. | Trees equal the flat list of plain directives; the lookup result is characterised by a relation proved functional; growth by monotonicity of what modules offer. Refuted: importing never panics, an import by name or a local trait method always wins, two stars of one module are harmless, growth never changes an identifier. |
| C61 | The whole type store: worlds, cache, normalisation, search for known kinds, components in dependency order, the search for an isomorphic stored group, new groups. Types are described by equations; being the same type is bisimilarity up to field order, defined in a separate specification. | Invariant of the store (closed, normalised, cache entries fit their world) preserved by each component, on top of the proved component and sorting algorithms (C28); canonicity from three invariants (reduced, worlds strongly connected, cycles inside one world) and completeness of the isomorphism search; repetition without any hypothesis by monotone growth. Refuted: duplicate kinds on a cycle, effect arguments on a cycle, types unfolding to a stored one. |
| C62 | The builder: slots for the aliases, one local kind per variant, tuple, record, function and new tag; natives and named types stored at once; finally all kinds stored together by the type store of C61. The meaning of a written type is a bisimulation between written types and stored ones, in a separate specification. | Invariant relating each filled slot to the written type it stands for, by induction on the written types; the local kinds denote the written types; the conditions of C61 follow from conditions on the written group; denotation is stable under sameness. Refuted: synonyms in a group, group members inside arrays and named types, a type written twice on a cycle. |
| C63 | The rewriting of function references after copies disappear, merging by rounds, reachability from declared bodies, and the removal of unread dictionary parameters. Same behaviour is a simulation between bodies up to the numbering of copies and the dropped parameters, in a separate specification. | Generic theorem: rewriting along a map that relates each copy to an alike one is a simulation. Merging: the classes relate only alike bodies; rounds end because each merges a copy. Dropping: the retained set is closed under references and is the least one. Narrowing: the renumbering is injective on the parameters read. Refuted: merging does not close mutually recursive pairs. |
| C64 | The choice of calls under the budget, the refusals, the splitting of the calling block, the copying of the callee's blocks with registers, constants, parameters and blocks renumbered, and the restoring of the stack at its exits. The interpreter is a machine with a stack of frames over a parameter giving the meaning of single operations. Agreement of two runs and what the verifier ensures are in a separate specification. | Lockstep simulation in which a frame of the callee on top of a frame of the caller corresponds to one frame in the inlined function, extended by a generic lemma to lists of splices (last site first, so that earlier sites stay put) and to whole programs (callers before callees). Totality and growth by induction on the plan. Refuted for an operation that reads through a place but not through a value that stands for one. |
| C65 | The builder of the graph with its reserved identifiers, one request at a time with the store of its time, and the reading of a graph into the store of C61. The catalog of native names as a sorted table. What a node describes, which types are met and what is wrong with a graph are in a separate specification. | Invariant of the builder: identifiers in order of discovery, distinct types, each finished node describes its type; the fuel is the number of stored types, by the pigeonhole principle. Restoring by a bisimulation between store and graph, which shows that the graph satisfies the conditions of C61. Recapture by running the two captures in lockstep. |
| C66 | Each caller as a machine with one file system operation a step, on a disk with numbered files, one directory entry for the cache file and its past values, temporary names, the marker and the lock. Failures, bytes written by each write, sleeping times, deaths and power losses are events. Decoding, restoring and capturing are parameters; so is the checksum, of length 32. | An invariant of all runs: whoever is between the lock and the return holds it, linked files are synced and whole, the file of a writer is not linked. A measure of the steps left. A second invariant for runs without failures, and a count of the time slept. |
| C67 | parsed programs with for loops, literals and property assignments; their rewriting with generated names and the counter; an evaluator of the rewritten programs with break, continue, return, errors, scopes, calls and output | a separate direct meaning of parsed programs that keeps the iterator outside the variables; both run with the same bound, so equality of answers is one induction on call depth and program covering termination both ways; a bound once enough is enough; witnesses for captured names and for a lost update |
| C68 | functions of blocks with the operations these passes look at and an open class of others; use counts, the worklist, the candidate tables, the census of each allocation; a machine over abstract values with a stated contract (a cell that cannot be reached is not seen; reads change nothing; writes change their place) | a general criterion: operations that are inert, whose results and cells no kept operation uses, can go; run in lock step by blocks so that divergence is covered. Invariant of the worklist: counts are the uses in what is left, every dead candidate is pending or done; a bound on its steps. The census is a fold, put in closed form; a concrete machine shows that the contract can be met |
| C69 | functions of blocks with the operations the pass tells apart; the sorted states, the sweeps over the blocks, the scan with its substitution, the rewriting; a machine with the number of cells, the markers and an abstract rest | the sweeps end because each shortens a state or reaches a block; the states are exactly the markers that are current on every walk, because a step distributes over intersections; by cutting and pasting walks, a marker replaced by another is equal to it wherever it is used, also in loops; lock-step simulation in which every operation sees the number of cells |
| C70 | the scan of each block with its stack of open regions, the count of the returns to a mark, the removal; functions and machine of C69 | a grammar of operations that close the regions they open, and of those that moreover leave no cells; the stack of the scan describes the operations passed by this grammar, and every pair of the grammar is found; over such operations the number of cells does not grow, so that by the stack discipline the return does nothing; lock-step simulation |
| C71 | the functions of math.rs over Flocq's IEEE 754 doubles, with one NaN; the mathematical library (sin, exp, powf and so on) is a parameter | a specification in real numbers: the exact result, rounded to the format and clamped; Flocq's correctness theorems give the rounding and the overflow cases, whose signs decide the side of the saturation. Refutation witness: 0.0 and -0.0 have different signs |
| C72 | the roots of places, the writes of a loop, natural loops, the choice of a call and of its new place, the edit; a machine with one cell for each root, the meaning of the operations being any that keeps a stated contract | the computed roots are exactly the derivable ones (the sweeps reach a fixed point); the work list closes a loop under predecessors, so that it is entered only from the block in front; definitions of what the call reads lie on every way to the new place, by a way that does not pass the loop; a lock-step simulation with three relations: outside, in the loop before the allocation, in the loop after it, where the cell of the call is empty or holds what the moved call computed |
| C73 | the operators, `min`, `max` and `clamp` over any `cmp`; the three native orders, strings as the bytes of their characters | case analysis on the answer of `cmp` for any total preorder; for strings, the encodings of two characters first differ at a byte that is ordered as the characters are, so the byte order is the dictionary order by induction |
| C74 | types as nodes of a graph, the match with its substitution and its set of seen pairs, the score and the choice of the greatest | being an instance is the largest relation that replaces parameters by arguments and otherwise keeps the shape; the seen pairs of a successful match are such a relation (invariant: every pair added is good in the final state), and every instance makes the match answer yes; seen pairs are distinct and bounded by the square of the number of types, so the match ends; the score is a lexicographic total order that determines the name |
| C75 | the search through the current module and the others, the rule for leaving out the path; a specification of what a name denotes, with local names before imports by name before imports of everything | each step of the search gives an alias of its module (C74 for the generic ones); the rule for the path is compared with the specification case by case |

## Trusted base

* Coq 8.16.1 kernel (and `coqchk`).
* `Print Assumptions` after each theorem of C01 to C70, C72, C74, C75 and, but for `C73_float_order`, of C73 prints `Closed under the global context`: they use
  no axiom, of the standard library or of any other.
* The theorems of C71 and `C73_float_order` speak of real numbers. They use the axioms of the standard library that its real
  numbers rest on: `ClassicalDedekindReals.sig_not_dec`, `ClassicalDedekindReals.sig_forall_dec`,
  `FunctionalExtensionality.functional_extensionality_dep` and `Classical_Prop.classic`, and no other. The
  definitions and lemmas on doubles are those of the Flocq library, which adds no axiom; that the processor
  computes what Flocq's operations compute is assumed.
* The transcription of `/repo` into `*Model.v` — checked by eye only; every definition cites its source
  lines and the header of each model file lists its simplifications.
* Not modelled: parsing by LALRPOP, type inference and checking, lowering of HIR to MIR, the native
  back end, the Rust runtime, allocation failure, threads (there are none), the functions of the
  mathematical library (they are parameters in C71), printing and parsing of floats, Unicode tables (abstracted as parameters of the theorems where they
  matter).

## What each model covers

| model | code |
|---|---|
| `IntModel`, `MachInt` | native integer functions of `src/std/math.rs`, `bits.rs` |
| `HashModel` | `src/std/hash.rs`, derived equality and hash of values |
| `HashTabModel` | `src/std/prelude/hash_collections.fer` |
| `ArrayModel`, `SortModel`, `SplitModel`, `IterModel` | `src/std/prelude/array*.fer`, iterator adaptors, ranges |
| `BitSetModel`, `ListArenaModel`, `EffModel`, `NamedModel`, `NamesModel`, `BudgetModel`, `TagsModel` | containers and small tables of the compiler |
| `GraphModel`, `DomModel` | `src/graph.rs`, `src/mir/dominance` |
| `SessionModel`, `AffectedModel` | `src/compiler/session` |
| `MirModel` | `src/mir/interpreter.rs` control flow and `src/eval.rs` limits |
| `GuardModel` | insertion of call-depth checks |
| `WillReturnModel` | `src/mir/pass/will_return.rs`, `src/mir/pass/call_graph.rs` |
| `EditModel` | block edits of `src/mir/edit.rs` |
| `RegModel` | registers, stores, comparisons and branches of `src/mir/interpreter.rs` (other operations are parameters that only see their operands) |
| `PeepholeModel` | `src/mir/pass/peephole.rs` |
| `InhabitModel` | uninhabited-type test of `src/hir/match.rs` on finite type graphs |
| `Utf8Model`, `PositionModel` | UTF-8 of the Rust library; `src/parser/location.rs` (positions, snippets, fused locations), `src/ide/position_index_lookup.rs` |
| `NfcModel`, `StrModel` | NFC as the `unicode-normalization` crate computes it over arbitrary tables; building and inspecting strings (`src/std/string.rs`), escapes (`src/parser/escapes.rs`), the string token |
| `StrSeqModel` | iteration, slicing and splitting of strings in `src/std/string.rs`, `join` of the prelude, over an arbitrary grapheme segmentation |
| `SerdeModel` | `src/std/serde.rs` (derived code as functions of the type), `src/std/prelude/serde_impl.fer` |
| `UnifyModel` | `src/types/type_inference/unify.rs` L436-478, L642-959, L1761-1922; `substitution.rs` L52-70, L142-180; `type_substitution.rs` L140-210. Not modelled: effects (C25, C26), interned recursive types (C34; the model stops with `Recursive`), the shared `seen` map |
| `CoherenceModel` | `src/types/coherence.rs` L95-197, L258-705. Parameters: the trait solver on constraints without variables, which traits are derivable. Not modelled: effects, visibility, head restrictions and orphan rule |
| `DestructureModel` | `src/desugar/patterns.rs` L12-527, `src/desugar/mod.rs` L171-175, `src/types/typing_env.rs` L187-194. Expressions are opaque but for names, literals, projections, constraints and ascriptions; values of structs are their payloads |
| `MatchModel` | `src/hir/match.rs` (all), `src/types/type.rs` `all_values`, coverage constraints of `src/types/type_inference/unify.rs`, literal patterns of `src/parser/helpers.rs`, lowering of `Case` in `src/emit_mir.rs`, `try_matches_runtime_value`. Types of scrutinees are known and not recursive; bodies and effects left out |
| `FrameModel` | `src/mir/interpreter.rs` run loop and the operations on whole cells, `src/mir/operation.rs`, `src/mir/terminator.rs`. A cell whose address escapes moves to an abstract shared memory; all other operations are abstract functions of kind, operand values and world |
| `DeadStoreModel` | `src/mir/pass/dead_store.rs`, all of it; whether a type is trivially copyable is a parameter |
| `BranchForwardModel` | `src/mir/pass/branch_forward.rs`, all but the final removal of unreachable blocks and merging of blocks (EditModel) |
| `NegationModel` | `src/mir/pass/negation.rs`, all of it; definition map and census computed by search; dominance from `DomModel` |
| `TailMergeModel` | `src/mir/pass/tail_merge.rs` up to the final removal of unreachable blocks, merging into predecessors and constant pruning; the hasher is any function; `exposed_dead_code` left out |
| `CleanupModel` | `src/eval.rs` (blocks, cases, loops, transfers, accessors, cleanup), `src/hir/function.rs` call, `src/emit_mir.rs` (scopes, pads, cases, loops, transfers, accessors), `src/mir/builder.rs`, terminators of `src/mir/interpreter.rs`; values, stack markers, `yield` and the drop of what is left in the frame of a failed call left out |
| `NumberModel` | `src/parser/parser.lalrpop` L973-977, L1483-1501, `src/parser/helpers.rs` L296-333, L357-376; the rounding of `f64::from_str` is not modelled: a float is its text |
| `FormatModel` | `src/desugar/format_string.rs`, `src/parser/helpers.rs` L290-294; the character classes of the regex crate are parameters that exclude the closing brace |
| `TypeDeclModel` | `src/desugar/module.rs` L23-122, L243-682 (verdict and order); the lowering of the types themselves is not modelled; values are defined for types without generics |
| `NameModel` | `src/desugar/import_resolver.rs`, `src/module/mod.rs` L1803-L1834, L1893-L1934, L1998-L2048, `src/module/module_env.rs` L957-L1245, identifier order of `src/types/type_inference/expr.rs` L860-L924. Not modelled: source locations, the unsafe-function check. |
| `InternModel` | `src/types/type.rs` L2440-L2560, L2877-L3454 (`insert_types` and all it calls) except `compute_scc_summaries`; `src/graph.rs` through `GraphModel`. The comparison that sorts a group and the hash order are arbitrary parameters. Native types are numbers; locks are not modelled. |
| `BuilderModel` | `src/desugar/types.rs` L30-343 (`RecursiveTypeBuilder`), `src/desugar/module.rs` L733-784. Names are resolved beforehand (C60); arguments of aliases of the group (checked to be the parameters unchanged), generic aliases of other groups, spans and the record of used modules are left out. |
| `CopiesModel` | `src/mir/pass/specialization_table.rs`, `share_specializations.rs`, `prune_specializations.rs`, `dead_evidence.rs`, and the parts of `src/mir/{operation,terminator,function,edit}.rs` they use. Operations are kinds with operands and a result; constants, spans and types are opaque numbers; the pass on owned arguments that runs between merging and dropping is left out. |
| `InlineModel`, `InlineMachine` | `src/mir/pass/inline.rs`, the parts of `src/mir/edit.rs` it uses, and the control of `src/mir/interpreter.rs` (frames, terminators, calls, failures, stack markers). What a single operation does is a parameter. Left out: types and spans, the substitution of type arguments into generic callees, scoped projections and yields (a callee with them is refused), the limit on the call depth, and the other passes between rounds. |
| `SnapModel` | `src/compiler/snapshot/type_graph.rs` and the catalog of `native.rs`, on the model of the type store (`InternModel`). Left out: the encoding to bytes, the result convention of subscript members, the conversion of effect lists to sets (C25), and the rest of the snapshot (functions, traits, sources). |
| `CacheModel` | `src/compiler/snapshot/cache.rs` L16-225. Left out: the choice of the cache path (`cache_path` only says whether there is one), log messages, and what decoding, restoring and capturing do (parameters; a panic in them is not modelled, see C65). A power loss keeps the content of synced files and may undo any change of the directory. |
| `SugarModel` | `src/desugar/expr.rs` L22-75, L108-567 (for loops, literals, blocks, assignments, property elements), `src/parser/helpers.rs` L644-655, `src/desugar/mod.rs` L171-175, name resolution of calls `src/types/type_inference/expr.rs` L1304-1332. Not modelled: patterns other than a name or `_` (C50), closures, mutable arguments other than that of `next`, types; properties are cells and arrays of them have integer indices from 0 |
| `DceModel` | `src/mir/pass/dce.rs` L60-338, L456-848: `remove_dead_results` and its two users, the census, dead allocations and constructed values, unread places; `src/mir/operation.rs` L120-134, `src/mir/terminator.rs` L136-146. Not modelled: `dead_same_block_clone_drop_pairs`, `remove_empty_local_stack_regions`, the pruning of constants. The contract of operations (clones and drops have no effect but on their place, proven calls return) is a hypothesis; one cell for each allocation |
| `MarkModel` | `src/mir/pass/stack_region.rs` L54-249 in full, `may_leave_frame_storage` of `src/mir/pass/dce.rs`, `StackSave` and `StackRestore` of `src/mir/interpreter.rs`; all other operations are a parameter that sees the number of cells. The rules of the verifier on markers are hypotheses. A return to a height above the current one ends the execution of the model |
| `MarkRegionModel` | `remove_empty_local_stack_regions` and the count of returns of `src/mir/pass/dce.rs` L346-404, L550-554, for any set of operations removed before; the interpreter of `MarkModel` |
| `FloatModel` | the float functions of `src/std/math.rs` L79-100, L172-208, L305-462; the operations of the processor are Flocq's; printing and parsing are left out |
| `LicmModel` | `src/mir/pass/licm.rs` L68-643, one move; the types, effects, dominance and the order of the loops are parameters; operations the pass does not tell apart share a form; what a return to a stack mark takes back is not in the machine (the order of the marks is a theorem of its own) |
| `CompareModel` | `src/std/prelude/comparison.fer`, `core_impls.fer` L3-10, `src/std/ordering.rs` L30-40, the orders and equalities of integers, floats and strings; the comparison of byte slices is that of Rust's standard library; strings are taken after normalization |
| `AliasNameModel` | `src/module/type_alias_name.rs`; the text of the arguments and its escaping are not modelled; mutability, effects, native types and definitions are compared as numbers |
| `AliasSearchModel` | `src/module/module_env.rs` L588-665, `src/module/mod.rs` L684-691, `src/types/type.rs` L1562-1584; the written text is a parameter, visibility of aliases is not modelled |
| `BorrowModel` | paths, overlap, exclusive-access check and shared-argument overlap of `src/hir/borrow_checker.rs` (the checks for writes during evaluation of later arguments and for escaping places are not modelled) |
| `JsonModel` | `src/std/prelude/json.fer`, `src/std/json.rs`; the events of the crate `json_event_parser` (not in the repository) are written from RFC 8259 |
| `EffSolverModel` | `src/types/type_inference/effect_solver.rs` (operations of the solver; queue of constraints, spans and snapshots left out), effect part of `substitution.rs`; the crate `ena` (not in the repository) as a table of roots and values, with an arbitrary choice of root |
| `RelModel`, `RelRecognize` | `src/mir/pass/relations.rs`, decision of `src/mir/pass/bounds_check.rs` (rewriting of the access, provenance of registers and the escape analysis are not modelled: operations name places and the escaping roots are given) |
| `RecEquationModel` | `src/types/recursive_equation.rs`, free-variable summaries of `src/types/type.rs` |

## Findings

Places where the English property is false of the code, each with a machine-checked witness:

* `idiv`, `rem`, `mod`, `idiv_euclid` of `(MIN, -1)` panic the host; `abs(MIN)` overflows (C01, C02).
* Shift amounts of 64 and more wrap or clamp; rotation amounts of 2^32 and more clamp (C03).
* `0.0 == -0.0` but their hashes differ (C04).
* An inclusive range ending at `MAX` (or descending to `MIN`) never ends; `len` of a huge range wraps (C15).
* After truncating a table in which a name was re-associated, the surviving entry cannot be found by name (C43).
* A dependent of two changed modules is first recompiled with no `uses` (C36, example).
* Recursion through a lambda expression, a trait method or a function value gets no call-depth check,
  so it overflows the host's stack whatever the limits (C44).
* A recursive equation is accepted as soon as one variant of its cycle has a payload that ends:
  `v = (A(v) | B(v), Leaf(int) | Node(v))` is accepted and has no finite value; `v = Node([v])` is
  rejected although `Node([])` is a value (C34).
* The exclusive-access check compares the first index argument of any subscript as if it were an array
  index: with a user subscript `at(i)` for `values[i % 2]`, a call that gets `at(0)` and `at(2)` by
  mutable reference is accepted although both are the same element; so are `whole(0).0` and `first(0).1`
  for the subscripts `values[i]` and `values[i].0`; a literal index that is not an integer makes the
  check panic (C32).
* Inspecting a string in which a newline, return or tab is followed by a combining mark gives a literal that
  denotes another string: the mark composes with the letter of the escape, `\n` + U+0303 prints `"\ñ"` (C19).
* Unescaping drops the character after `\u` when it is not a brace (C19, example).
* Data text is ambiguous (C18): floats without fraction print like ints (and large ones, `1e20`, do not read back at
  all), `Tuple []` prints like unit, variants named `null`, `true`, `false`, `set`, `map` print like keywords, a
  variant's payload of one record prints like a record payload and other single payloads read back as tuples, and a
  record field such as `x̃` prints unquoted because characters are compared as strings (`"a" <= "x̃" <= "z"`), but the
  parser accepts ASCII only.  A consequence: `data_text_decode(data_text_encode(Some({x: 1})))` fails.
* A JSON string with a control character followed by a combining mark is not valid JSON: `"\n"` + U+0303 renders
  `"\ñ"`, U+000E + U+0301 renders `"\u000é"`; neither reads back (C20).
* The data text and JSON parsers and renderers recurse on the host without limit.
* Appending in place only normalizes when the appended text starts with a combining mark: a Hangul syllable
  and a trailing consonant are left unjoined, so the string is not normalized and differs from `concat` (C21).
* The effect solver accepts inclusions and equalities that its solution does not satisfy (C26): the primitive effects of
  a lower side that also has variables are not checked against the upper side, an empty upper bound is forgotten, two
  upper bounds or two equalities of a variable count as their union, unifying a variable that has effects with declared
  effects returns the declared ones only, and effects reported with a shared cache lose effects on circular values.
  These are sequences of calls of the solver; which of them a source program causes is not modelled.
* Bounds checks are removed that would fail (C31).  Wraparound: `if j <= i { if i - j < len(a) { a[i - j] } }` accesses
  offset -1 for the largest `i` and the smallest `j`.  The literal index -9223372036854775808 into an empty array literal is
  left unchecked.  After `a = b` the length of `a` is named as on entry again, so `if 0 <= i { if i < len(a) { a = b; a[i] } }`
  uses the old guard.  The cursor of an inclusive range ending at the largest integer wraps and is still taken to be
  non-negative.  An iterator stepped and then rebuilt in one block is taken to count from the second start.  A parameter
  that escapes is read as if nothing could write it.
- C47: `Some({x: 1})` written as data text and read back fails to deserialize: the text `Some({ x: 1 })` is the variant with
  a record payload, not with a tuple of one record.  A `DataValue` inside a value is changed by JSON (unit becomes null),
  although sets, maps, tuples, variants and whole floats of the other types come back.
- C48: record types are compared field by field without comparing the number of fields: `{a: 1}` is accepted where
  `{a: int, b: int}` is expected.  Any type is accepted where `never` is expected, also below a function type.  Subscript
  types asked to be the same may differ in their members.  Two mutability variables of which one must be at least the other
  are merged, so that some solvable demands are rejected.
- C49: two implementations for the same types with different output types (`impl<T> Tr for T |-> int` and
  `impl<T> Tr for T |-> string`) are both accepted, because outputs that do not unify count as no overlap
  (`C49_outputs_refuted`). `impl<T: A> B for T`, `impl B for int` and then `impl A for int` are accepted in this order,
  and refused in another: the later implementation of A is only compared with implementations of A
  (`C49_later_refuted`).
- C50: `let (x, y) = x;` expands to `let x = x.0; let y = x.1;`, whose second `x` is the new one: with `x = ((1, 2), 3)`
  `y` is 2 instead of 3, and with most other types the program is rejected (`C50_shadow_refuted`).
- C51: `match e { _ => d }` compiles to `d` alone, so the effects of `e` are lost. A match without default on a declared enumeration accepts arms for tags that the enumeration does not have. Because records are unified field by field without comparing their number, the pattern `Foo {a, b}` is accepted for a payload `{a}` and reads past its end, and a literal pattern `{a: true}` is accepted for `{a, b}` and cannot be compared at run time. A literal pattern that repeats a field makes the compiler panic. `Foo {..}` is refused for variants with fields.
- C52: no defect found. A call's result place counts as a whole write although a call that raises may leave it unwritten; the pass is right because invoked calls are terminators and exclude their operands.
- C53: no defect found. The check that the stores found are all the stores of the flag is not needed for correctness; the restores before the test in the join are not counted against the replay budget.
- C54 refuted: `is_materialized` takes every register a `load` defines for a boolean. When a condition is loaded through an address that was itself loaded (`if a[i] { .. }` where indexing is a call returning a place, whose slot load survives to this pass), and the function contains any comparison, the branch is made to test the address and the interpreter panics (`C54_loaded_address_refuted`). Proved when no load goes through a loaded address.
- C55 refuted with loops: a block before a loop, whose result is read in the loop, can equal the block at the end of that loop. The later one is kept and the earlier redirected to it, so the register the loop reads is never written and the interpreter panics (`C55_loop_refuted`). The comment in the pass argues that no candidate's result can be read outside, since a shared successor would not be dominated by it; a loop end reached only through the candidate escapes that argument. Proved for every loop free body with definitions before uses, and with loops when the results of blocks that look alike are read only inside them.
- C56 refuted in four places. `return return x` (and `return break …`): the evaluator returns, the lowering of `Return` does not look whether its value already ended the block, as that of `Break` does, and runs into the assertion that a terminated block gets no other terminator (`C56_nested_return_refuted`). `lower_with_yielded_enter` enters the scope of the accessor's temporaries only after all its arguments: when a later argument returns, the evaluator drops a temporary that compiled code leaves (`C56_leaving_argument_refuted`); when it fails, neither block level cleanup drops it (`C56_failing_argument_refuted`), and only the evaluator has a net for the whole frame. When the accessor's ramp fails, compiled code drops the temporaries at once, the evaluator leaves them to that net (`C56_failing_ramp_refuted`). Not modelled: the body of an accessor whose prefix diverges is lowered into a terminated block.
- C57: floats are read as a projection `int . index`, and an index has no leading zeros. So `1.05` is not a float literal: it is read as `1.0` followed by `5`, a syntax error (`C57_leading_zero_refuted`); a fraction of 2^64 or more, such as `0.18446744073709551616`, is refused as too large (`C57_long_fraction_refuted`); `0x10.5` is accepted as 16.5. The least integer cannot be written: the literal after the minus sign does not fit (`C57_least_integer_refuted`).
- C58: the spans inside a format string are computed on the text after escapes were applied. With an escape before it, the span of a hole is too far left: the error for `f"\n{x}"` points at the brace instead of the name (`C58_places_refuted`).
- C59: one alternative that leaves the group suffices for the whole group. `enum A { X(A, B) }` with `enum B { Nil, Y(A) }` is accepted and `A` has no value (`C59_enum_without_value_refuted`), and so is `struct A { x: U(A) | V(A), y: None | Some(A) }` (`C59_struct_without_value_refuted`).
- C59: arrays do not count as guards and nested sums are not looked into: `struct Tree { children: [Tree] }` and `enum A { X(None | Some(A)) }` are rejected although they have values (`C59_rejected_value_refuted`).
- C59: a type parameter with the name of a declared type is taken for that type. `struct Item { b: Box<int> }` with `struct Box<Item> { x: Item }` is rejected as an infinite type (`C59_parameter_name_refuted`).
- C60: `use *;` (also `use {*};`) is accepted by the grammar and makes the compiler panic: the path is empty, its span is `None` and `import_resolver.rs` L102 unwraps it. An explicit `use std::*;` repeats the implicit wildcard and makes every standard name ambiguous. Kinds are searched one after the other through all imports, so a subscript imported by name, or the module's own trait method, silently loses against a function offered by a wildcard import; hence adding a public function to a wildcard-imported module can silently change the meaning of an identifier.
- C61: (a) a recursive group with two equal kinds on one cycle is stored wrongly: the new world is an `IndexSet`, which merges them, while the index map still counts both, so the last index names no type (a later access panics) and the kinds after the duplicate are shifted. `type T = Leaf | A(T) | B(T)` describes such a group. (b) `type_kinds_match_with_mapping` ignores the effect arguments of named types, so two recursive types that differ only there get one identifier. (c) a cyclic type that unfolds to a stored one without being written like it (`X = (X, B)` when `A = (A, B)`, `B = [A]` are stored) gets a second identifier, so equal types compare different.
- C62: (a) `type A = B; type B = Cons(A) | Leaf`: a synonym inside a recursive group never fills its slot, which stays `never`, so `B` becomes `Cons(never) | Leaf` without any error. (b) `type Json = Arr([Json]) | Num(int)`: arrays, native and named types are stored while the group is still being lowered, so the local reference inside is taken as the array's own: `Arr` holds an endless array of arrays and never a `Json`. (c) `type T = Leaf | Node(T, [(int, int)])` panics for the same reason: the local index is out of range of the single kind stored. (d) `type T = Leaf | A(T) | B(T)` gives `A` a payload that names no type (C61).
- C63: the documentation of `share_specializations.rs` (L24-29) says the repeated rounds also close the mutually recursive case. They do not: two pairs of mutually recursive copies with identical bodies are never merged, because each waits for the other. Only sharing is missed; behaviour is unaffected.
- C64: the theorem needs every operation to treat a place and a value that stands for a place (`PlaceResult`) alike. `with_runtime_value` (`src/mir/interpreter.rs` L2487-2525), used by `exec_compare_equal`, does not: it reads through a place but compares a `PlaceResult` itself with the pattern, which has no matching representation, and panics. An addressor result is loaded into a register as such a value (`src/emit_mir.rs` L848-850) and can be passed as an argument, so inlining a callee that matches a parameter against a non-boolean literal can turn a working call into a panic; `C64_literal_match_refuted` is the model of this. A literal match whose scrutinee is itself an addressor call would take the same path. Found by reading, not by running; whether the HIR always copies such a scrutinee first was not checked.
- C64: the limit on the call depth is observable and inlining lowers the depth of calls, so a program close to the limit may stop failing. A recursive function carries the check and is never inlined. Left out of the model.
- C64: `check_inlinable` looks for scoped projections and the depth check among plain operations only. The depth check is always plain (the verifier requires it of an operation that cannot fail), so recursion is recognised; a projection through a fallible accessor is an invoked operation, so a callee with one is not refused. The model does not give projections a meaning, so it says nothing about such a callee.
- C65: a graph in which a record or variant names a field twice is not reported as an error: `store_types` panics on it (`C65_doubled`). `SnapshotTypeGraph::materialize` checks references and native names only, although every other failure of the cache is treated as a miss (`cache.rs` L22-23). The cache file carries a checksum, so only a file written on purpose gets there.
- C66: a process that dies between creating and renaming its temporary file leaves it in the cache directory for good: nothing removes files of other processes (`ex_crash_runs`). If a later process gets the same process number, its first publication fails on that file and removes it (`C66_leftover_ex`); the library is then built once more by the next process.
- C66: the marker of an unusable cache is never removed by the program; with it every process compiles the library itself (`C66_marked`).
- C67: the rewritten programs name `next`, `iter` and `from_int` as plain identifiers, resolved like the user's own: a variable or a function of the module with one of these names captures them (`C67_capture_refuted`): a function `from_int` changes the value of every integer literal of its module, a variable `next` in scope breaks for loops. The generated variables themselves cannot clash. Assigning to an element of a property copies the property first: a write to that property by the index or by the value is lost (`C67_lost_update_refuted`), though the place is otherwise read after them.
- C69: two conditions of the pass are not established by it. A yielded accessor is resumed below the cells of its user, but the analysis carries its state over the yield: a return to the old height, which would have released those cells, is dropped, and the rest of the accessor runs with more cells than before (`C69_accessor_refuted`), against the claim of the module comment that peak cell use is unchanged instruction for instruction. And the substitution is resolved once, in block order: if a block comes before a block that dominates it, a return can be left naming a mark whose save was removed too (`C69_block_order_refuted`). The second needs a body that is not in reverse postorder; only inlining reorders the blocks, and we did not look for a source program that reaches it.
- C71: `signum(0.0)` is 1 and `signum(-0.0)` is -1 although the two are equal, while `signum(0)` of an integer is 0. `pow(0.0, -1.0)` is the largest float although `1.0 / 0.0` fails.
- C72: the pass does not look at whether what the call reads is set at the new place. A loop that is not gone into may be reached with it unset, and then the moved call reads unset storage (`C72_unset_input_refuted`). Whether the rest of the compiler lets such a function arise is not modelled. A result cell that is allocated outside the loop is filled before the loop starts, so a read before the call in the first round finds the new result and not that of the last time the loop ran; `prepared` in the specification excludes both. Writes through places that the pass finds no root for (loaded or projected places) are not counted as writes; the contract of the machine asks that they change no rooted storage.
- C73: of two different values that compare as equal, `min(a, b)` and `max(a, b)` are both `b`, so `a` is lost (`C73_pair_refuted`); the maximum and the minimum of 0.0 and -0.0 are both -0.0. `clamp` of a value that compares equal to the upper bound gives the bound, and of one equal to the lower bound the value.
- C74: an alias for a type with a subscript type in it is never shown, not even for its own definition, since the match has no case for subscripts (`C74_subscript_refuted`).
- C75: the path is left out for every alias of a module of which everything is imported, also when the current module declares the same name or imports it from elsewhere; the message then shows a name that means another type (`C75_denotes_refuted`).

## How complete the log of wrong programs is

`tools/mutate.py` wrote an attempt to `seeded/LOG.jsonl` only when some theorem failed.
Attempts that no theorem caught were left out until the end of the work.
28 of them were still in the outputs of the runs and were appended afterwards, with an empty `theorems_failed` and a `note`.
Missed attempts whose outputs had been overwritten are not in the log, so the share of caught attempts in it is too high.
Of the 28, some edits do not falsify the claim (their text says so: "harmless", "not a claim", "sanity").
Others may, and were not all followed by a tightening.
One that is known to be a real gap is `AliasSearchModel.uses` (C75): `C75_denotes_partial` asks its import condition of every alias, although only imports of everything need it.
