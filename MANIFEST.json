{
 "claims": [
  {
   "property": "C01",
   "status": "partial",
   "theorems": [
    "C01_int_arithmetic_wraps",
    "C01_abs_signum",
    "C01_abs_total_refuted"
   ],
   "note": "add/sub/mul/neg wrap exactly; abs(MIN) aborts the host or is negative (refuted case)."
  },
  {
   "property": "C02",
   "status": "partial",
   "theorems": [
    "C02_division_refuted",
    "C02_division_panics_only_at",
    "C02_division_partial"
   ],
   "note": "Proved for all operands except (MIN,-1), where the host panics (refuted)."
  },
  {
   "property": "C03",
   "status": "partial",
   "theorems": [
    "C03_bitwise",
    "C03_single_bit",
    "C03_counts",
    "C03_shift_partial",
    "C03_shift_refuted",
    "C03_rotate_partial",
    "C03_rotate_inverse",
    "C03_rotate_refuted"
   ],
   "note": "Bitwise, single-bit and counting operations fully; shifts for |s|<64 and rotations for |s|<2^32; larger amounts refuted."
  },
  {
   "property": "C04",
   "status": "partial",
   "theorems": [
    "C04_equal_values_hash_equally_refuted",
    "C04_equal_values_hash_equally_partial",
    "C04_values_are_lawful_keys_partial"
   ],
   "note": "Refuted for 0.0 and -0.0, which are equal but hash differently; proved for all values (products, variants, arrays, sets, maps, nested) without a negative zero. Functions and native iterators are not modelled."
  },
  {
   "property": "C05",
   "status": "proved",
   "theorems": [
    "C05_unordered_hash_ignores_order",
    "C05_equal_sets_hash_equally",
    "C05_equal_maps_hash_equally"
   ],
   "note": ""
  },
  {
   "property": "C06",
   "status": "proved",
   "theorems": [
    "C06_hash_set_is_a_set"
   ],
   "note": ""
  },
  {
   "property": "C07",
   "status": "proved",
   "theorems": [
    "C07_hash_map_is_a_map"
   ],
   "note": ""
  },
  {
   "property": "C08",
   "status": "proved",
   "theorems": [
    "C08_tables_never_full"
   ],
   "note": ""
  },
  {
   "property": "C09",
   "status": "proved",
   "theorems": [
    "C09_iteration_visits_every_entry_once"
   ],
   "note": ""
  },
  {
   "property": "C10",
   "status": "proved",
   "theorems": [
    "C10_equality_is_extensional"
   ],
   "note": ""
  },
  {
   "property": "C11",
   "status": "proved",
   "theorems": [
    "C11_arrays_behave_like_lists"
   ],
   "note": ""
  },
  {
   "property": "C12",
   "status": "proved",
   "theorems": [
    "C12_indexing",
    "C12_index_meaning"
   ],
   "note": ""
  },
  {
   "property": "C13",
   "status": "proved",
   "theorems": [
    "C13_slicing",
    "C13_split_concat"
   ],
   "note": ""
  },
  {
   "property": "C14",
   "status": "proved",
   "theorems": [
    "C14_sort_is_stable_ordered_permutation",
    "C14_sorted_is_stable_ordered_permutation",
    "C14_result_is_unique",
    "C14_any_comparison_is_safe"
   ],
   "note": ""
  },
  {
   "property": "C15",
   "status": "partial",
   "theorems": [
    "C15_range_iteration",
    "C15_inclusive_range_iteration_partial",
    "C15_inclusive_range_never_ends_refuted",
    "C15_range_len_partial",
    "C15_inclusive_range_len_partial",
    "C15_range_len_refuted"
   ],
   "note": ""
  },
  {
   "property": "C16",
   "status": "proved",
   "theorems": [
    "C16_adaptors",
    "C16_zip",
    "C16_chain",
    "C16_take_is_lazy",
    "C16_effectful_adaptors",
    "C16_consumers",
    "C16_sum",
    "C16_join",
    "C16_minimum_maximum"
   ],
   "note": ""
  },
  {
   "property": "C17",
   "status": "proved",
   "theorems": [
    "C17_array_split",
    "C17_array_split_element",
    "C17_empty_separator",
    "C17_array_join",
    "C17_array_split_then_join",
    "C17_pieces_do_not_contain_separator",
    "C17_string_split",
    "C17_string_split_then_join",
    "C17_string_parts_do_not_contain_separator",
    "C17_string_join",
    "C17_string_empty_separator"
   ],
   "note": "Arrays (element and array separators) and strings. For strings the parts do not contain the separator as a run of characters; as a substring they may (example: x with a cedilla contains x). Joining strings normalizes; substrings of the normalized original are assumed normalized, as Unicode guarantees."
  },
  {
   "property": "C18",
   "status": "partial",
   "theorems": [
    "C18_round_trip_partial",
    "C18_trailing",
    "C18_total",
    "C18_whole_float_refuted",
    "C18_refuted"
   ],
   "note": "Round trip for all values without the ambiguous shapes (predicate good); the ambiguous shapes are shown not to round-trip (refuted). Reading is total. Float printing and reading are parameters; the fractional floats are those whose text is digits, point, digits and reads back. Normalization tables are parameters with the facts of the Unicode database assumed (regular, ascii_no_mark)."
  },
  {
   "property": "C19",
   "status": "partial",
   "theorems": [
    "C19_inspect_reads_back_partial",
    "C19_escapes",
    "C19_total",
    "C19_plain",
    "C19_inspect_refuted"
   ],
   "note": "For all regular Unicode tables (the facts used are listed in StrSpec) and all normalized strings, except those where a newline, return or tab is followed by a character that may join a letter (refuted there: the escape letter composes with the mark). Escapes proved against a grammar."
  },
  {
   "property": "C20",
   "status": "partial",
   "theorems": [
    "C20_round_trip_partial",
    "C20_image_partial",
    "C20_literal_partial",
    "C20_total",
    "C20_refuted",
    "C20_literal_refuted"
   ],
   "note": "Values JSON has (json_native) round trip when their strings have no control character followed by a character that may combine (json_string_ok); every other value reads back as its image, which is stable. Strings outside are refuted with a witness. Reading is total and never panics the host. The event reader of the crate json_event_parser is modelled from RFC 8259; float printing and reading are parameters (json_float_ok)."
  },
  {
   "property": "C21",
   "status": "partial",
   "theorems": [
    "C21_push_is_concat_partial",
    "C21_normalized_partial",
    "C21_hangul_refuted"
   ],
   "note": "For all Unicode tables: append equals concatenation when the appended text starts with a mark or with a character that never joins; refuted for Hangul vowels and trailing consonants, which are letters."
  },
  {
   "property": "C22",
   "status": "proved",
   "theorems": [
    "C22_before",
    "C22_line_column",
    "C22_beyond",
    "C22_snippet",
    "C22_editor_position",
    "C22_fuse",
    "C22_fuse_mixed"
   ],
   "note": "For all texts of Unicode scalar values and all byte offsets, over the UTF-8 bytes; offsets are unbounded (sources shorter than 4 GiB). Includes the standard library's binary search as implemented."
  },
  {
   "property": "C23",
   "status": "proved",
   "theorems": [
    "C23_bitset_is_a_set",
    "C23_intersects",
    "C23_equality_extensional"
   ],
   "note": ""
  },
  {
   "property": "C24",
   "status": "proved",
   "theorems": [
    "C24_list_refines_sequence"
   ],
   "note": ""
  },
  {
   "property": "C25",
   "status": "proved",
   "theorems": [
    "C25_canonical",
    "C25_constructors",
    "C25_insert_union",
    "C25_instantiate",
    "C25_iteration",
    "C25_subset_and_singletons",
    "C25_ordering"
   ],
   "note": ""
  },
  {
   "property": "C26",
   "status": "partial",
   "theorems": [
    "C26_monotone",
    "C26_lower_partial",
    "C26_upper_partial",
    "C26_variable_partial",
    "C26_flow_partial",
    "C26_checked",
    "C26_equality_partial",
    "C26_sequence",
    "C26_body",
    "C26_callable",
    "C26_argument",
    "C26_total",
    "C26_reported",
    "C26_reported_list_partial",
    "C26_refuted",
    "C26_body_refuted",
    "C26_reported_list_refuted"
   ],
   "note": "Proved for all histories of solver operations and any choice of union roots: effects are never lost; concrete lower sides, open upper or lower variables, expression sequences, function bodies, generalized callables and unified arguments keep their effects; fully known upper sides are checked exactly; every operation ends; reported effects are exact for one effect type. The full claim is refuted: C26_refuted lists accepted inclusions and equalities that the solution does not satisfy, C26_body_refuted and C26_reported_list_refuted the lost effects of unify_effects and of the shared cache. Not modelled: which histories type inference produces."
  },
  {
   "property": "C27",
   "status": "proved",
   "theorems": [
    "C27_reverse_postorder"
   ],
   "note": ""
  },
  {
   "property": "C28",
   "status": "proved",
   "theorems": [
    "C28_components",
    "C28_sorted_components"
   ],
   "note": ""
  },
  {
   "property": "C29",
   "status": "proved",
   "theorems": [
    "C29_cycle_search"
   ],
   "note": ""
  },
  {
   "property": "C30",
   "status": "proved",
   "theorems": [
    "C30_dominance"
   ],
   "note": ""
  },
  {
   "property": "C31",
   "status": "partial",
   "theorems": [
    "C31_bounds_checks_partial",
    "C31_guard_overflow_refuted",
    "C31_smallest_index_refuted",
    "C31_stale_length_refuted",
    "C31_inclusive_wrap_refuted",
    "C31_rebuilt_iterator_refuted",
    "C31_escaped_parameter_refuted"
   ],
   "note": "Proved for every program the worklist settles on, every numbering of symbols and every execution whose comparisons and ranges do not overflow: an access left unchecked is the access the check would have let through. The full claim (wraparound included) is refuted by six witnesses. Hypotheses: results disjoint from arguments, parameters used as operands do not escape, no place is overwritten while facts about its initial contents are kept (each shown necessary by a refutation). Not modelled: the rewriting of the access, the escape analysis."
  },
  {
   "property": "C32",
   "status": "partial",
   "theorems": [
    "C32_exclusive_partial",
    "C32_callee_partial",
    "C32_shared_partial",
    "C32_total",
    "C32_rejected",
    "C32_accepted",
    "C32_user_subscript_refuted",
    "C32_two_subscripts_refuted",
    "C32_literal_index_refuted"
   ],
   "note": "For all calls, whatever the run-time indices, with indexing that selects the same part for equal and separate parts for different non-negative literals (as arrays do); refuted for user-defined subscripts. The invariant of disjoint locals is kept by calls. Place expressions have the shape type inference builds. Checks of writes during argument evaluation are not modelled."
  },
  {
   "property": "C33",
   "status": "proved",
   "theorems": [
    "C33_empty_match",
    "C33_not_recursive",
    "C33_omitted_arms",
    "C33_only_named_enums"
   ],
   "note": "For every finite type graph; exact for non-recursive types; for recursive ones only the safe direction holds (Example). Finiteness of the graph of instantiated named types is assumed."
  },
  {
   "property": "C34",
   "status": "partial",
   "theorems": [
    "C34_verdict",
    "C34_rejected_no_value",
    "C34_accepted_value_partial",
    "C34_single_variant_value_partial",
    "C34_accepted_value_refuted",
    "C34_rejected_value_refuted"
   ],
   "note": "The verdict is characterised exactly for all type graphs; existence of a value is refuted in general (one ending variant suffices for the check) and proved when every variant of the cycle has an ending payload; rejection implies no value for cycles through tuples, records and variants, refuted through natives."
  },
  {
   "property": "C35",
   "status": "proved",
   "theorems": [
    "C35_fuel_limit",
    "C35_fuel_violation_when_spent",
    "C35_no_fuel_limit",
    "C35_depth_and_cell_limits",
    "C35_checks_exact",
    "C35_depth_restored",
    "C35_poisoned_for_good",
    "C35_source_failures_leave_usable",
    "C35_no_guest_code_after_poisoning"
   ],
   "note": ""
  },
  {
   "property": "C36",
   "status": "proved",
   "theorems": [
    "C36_total",
    "C36_failed_refused",
    "C36_runs_current",
    "C36_refused_for_a_reason",
    "C36_no_import_cycle",
    "C36_compile_effect",
    "C36_update_effect"
   ],
   "note": "The compiler proper (parsing, checking, emitting) is an arbitrary function of the module table; histories of compile, update, register and reset from a new session. Host modules must be registered over fresh dependencies (Example shows why). Also shows that a dependent of two changed modules is first recompiled without its uses."
  },
  {
   "property": "C37",
   "status": "proved",
   "theorems": [
    "C37_affected",
    "C37_reverse_deps"
   ],
   "note": ""
  },
  {
   "property": "C38",
   "status": "proved",
   "theorems": [
    "C38_total",
    "C38_identities",
    "C38_encode"
   ],
   "note": ""
  },
  {
   "property": "C39",
   "status": "proved",
   "theorems": [
    "C39_proved_functions_return",
    "C39_exactly_finite_calls"
   ],
   "note": ""
  },
  {
   "property": "C40",
   "status": "proved",
   "theorems": [
    "C40_boolean_branches_straightened"
   ],
   "note": "For bodies whose targets exist and whose registers are defined in the body (what the MIR verifier checks); runs that crash the host are excused (a branch on a place, which verified bodies do not have, panics in the model)."
  },
  {
   "property": "C41",
   "status": "proved",
   "theorems": [
    "C41_specialization_limit",
    "C41_owned_argument_variant_limit"
   ],
   "note": ""
  },
  {
   "property": "C42",
   "status": "proved",
   "theorems": [
    "C42_greek_distinct",
    "C42_latin_distinct",
    "C42_subscript",
    "C42_subscript_distinct",
    "C42_display_type_names",
    "C42_display_effect_names"
   ],
   "note": ""
  },
  {
   "property": "C43",
   "status": "partial",
   "theorems": [
    "C43_total",
    "C43_by_name",
    "C43_by_name_complete_partial",
    "C43_by_name_complete_refuted",
    "C43_insert",
    "C43_ids_stable",
    "C43_replace",
    "C43_truncate"
   ],
   "note": "Lookup by name is refuted after truncation (a re-associated name loses the surviving older entry); everything else is proved for all histories."
  },
  {
   "property": "C44",
   "status": "partial",
   "theorems": [
    "C44_guarded_programs_end",
    "C44_direct_recursion_checked",
    "C44_checked_are_recursive",
    "C44_direct_programs_end",
    "C44_recursion_checked_refuted",
    "C44_unchecked_recursion_never_ends"
   ],
   "note": "Termination proved for all programs whose control-flow cycles cross a fuel check and whose call cycles cross a depth check; the compiler's insertion of depth checks is proved complete for direct recursion between source functions and refuted for recursion through lambdas (no check is inserted; such a program never ends)."
  },
  {
   "property": "C45",
   "status": "proved",
   "theorems": [
    "C45_removal_keeps_runs",
    "C45_reordering_keeps_runs",
    "C45_merging_keeps_runs"
   ],
   "note": ""
  },
  {
   "property": "C46",
   "status": "proved",
   "theorems": [
    "C46_iteration",
    "C46_slice",
    "C46_slice_whole"
   ],
   "note": ""
  },
  {
   "property": "C47",
   "status": "partial",
   "theorems": [
    "C47_exact",
    "C47_round_trip_partial",
    "C47_data_text_partial",
    "C47_json_partial",
    "C47_read_partial",
    "C47_data_text_refuted",
    "C47_json_refuted"
   ],
   "note": "Exact round trip for values without sets and maps; equal value for all others without negative zeros (C08 refutes hashing of negative zero). Text formats under the conditions of C18 and C20; refuted for Some of a record (data text) and DataValue (JSON). Reading any data value ends with a failure or a well-typed value. round, from_int and the printing of floats are parameters; the selection of implementations by the trait solver is read off the type."
  },
  {
   "property": "C48",
   "status": "partial",
   "theorems": [
    "C48_sound_partial",
    "C48_equal_partial",
    "C48_most_general",
    "C48_ends",
    "C48_no_panic_partial",
    "C48_record_refuted",
    "C48_never_refuted",
    "C48_subscript_refuted",
    "C48_mutability_refuted"
   ],
   "note": "Soundness under the condition that no record shape extends another at its end (refuted otherwise); agreement allows never on both sides and more subscript members, as the code does (refuted as equality). Most general solution and termination without conditions. Effects left out; recursive types end the model."
  },
  {
   "property": "C49",
   "status": "partial",
   "theorems": [
    "C49_no_overlap_partial",
    "C49_program_partial",
    "C49_concrete",
    "C49_outputs_refuted",
    "C49_later_refuted"
   ],
   "note": "Completeness of the overlap search under two stated assumptions (the solver finds what holds for types without variables; derivable instances are known derivable); unconditional for programs without where-clauses. Refuted: different outputs, and order of declarations."
  },
  {
   "property": "C50",
   "status": "partial",
   "theorems": [
    "C50_binds_partial",
    "C50_bound_twice",
    "C50_no_panic",
    "C50_struct_fields",
    "C50_struct_elements",
    "C50_shadow_refuted"
   ],
   "note": "Proved for sources that are not a variable (or a field of one) which the pattern binds again; refuted in that case."
  },
  {
   "property": "C51",
   "status": "partial",
   "theorems": [
    "C51_values",
    "C51_literals_partial",
    "C51_literals_typed",
    "C51_literals_accepted",
    "C51_variants_partial",
    "C51_variants_accepted",
    "C51_scrutinee_refuted",
    "C51_scrutinee",
    "C51_unknown_tag_refuted",
    "C51_record_variant_refuted",
    "C51_record_literal_refuted",
    "C51_repeated_field_refuted",
    "C51_no_panic",
    "C51_wildcard_refuted"
   ],
   "note": "Proved: enumeration of values, the unique matching arm runs with the right bindings, complete matches are accepted, no other panic. Partial: record patterns are assumed to name existing fields; the exceptions are refuted with witnesses."
  },
  {
   "property": "C52",
   "status": "proved",
   "theorems": [
    "C52_exact",
    "C52_same_calls",
    "C52_same_program"
   ],
   "note": "Proved for every machine, body, parameter and world; verifier facts (one definition per register, no cell address stored in a cell) are hypotheses."
  },
  {
   "property": "C53",
   "status": "proved",
   "theorems": [
    "C53_same_runs",
    "C53_same_program",
    "C53_removes_test",
    "C53_search_ends"
   ],
   "note": "Proved for every machine whose boolean constants are copyable booleans; one definition per register is a hypothesis."
  },
  {
   "property": "C54",
   "status": "partial",
   "theorems": [
    "C54_same_calls_partial",
    "C54_same_program_partial",
    "C54_walks_end",
    "C54_negation_skipped",
    "C54_loaded_address_refuted"
   ],
   "note": "Refuted when a load goes through an address that was itself loaded; proved for all other bodies with single definitions that precede their uses. Booleans of the machine are copyable."
  },
  {
   "property": "C55",
   "status": "partial",
   "theorems": [
    "C55_same_runs_partial",
    "C55_same_runs_loop_free",
    "C55_same_program_partial",
    "C55_equal_blocks_merged",
    "C55_search_exact",
    "C55_loop_refuted"
   ],
   "note": "Refuted for bodies with loops (a block before a loop equal to the one at its end); proved for loop free bodies and for bodies whose look-alike blocks keep their results to themselves. Assumes an operation with a result register gives a value."
  },
  {
   "property": "C56",
   "status": "partial",
   "theorems": [
    "C56_same_answers_partial",
    "C56_nothing_left_partial",
    "C56_reverse_order",
    "C56_nested_return_refuted",
    "C56_failing_ramp_refuted",
    "C56_failing_argument_refuted",
    "C56_leaving_argument_refuted"
   ],
   "note": "Refuted for a return inside a return and for temporaries of accessors whose arguments or ramp fail or transfer control; proved for all other bodies. The net that drops what is left in the frame of a failed call, and yield, are not modelled."
  },
  {
   "property": "C57",
   "status": "partial",
   "theorems": [
    "C57_integer",
    "C57_float_partial",
    "C57_leading_zero_refuted",
    "C57_long_fraction_refuted",
    "C57_least_integer_refuted"
   ],
   "note": "Refuted for fractions with a leading zero or of twenty digits and more, and for the least integer; proved for every other literal. Rounding of decimal text to a float is the standard library's."
  },
  {
   "property": "C58",
   "status": "partial",
   "theorems": [
    "C58_pieces",
    "C58_code",
    "C58_value",
    "C58_places_partial",
    "C58_places_refuted"
   ],
   "note": "Places of names refuted for literals with escapes before them; cutting and value proved for every text."
  },
  {
   "property": "C59",
   "status": "partial",
   "theorems": [
    "C59_verdict",
    "C59_unfolding_ends",
    "C59_lowering_order",
    "C59_rejected_no_value_partial",
    "C59_accepted_value_partial",
    "C59_single_sum_value_partial",
    "C59_enum_without_value_refuted",
    "C59_struct_without_value_refuted",
    "C59_rejected_value_refuted",
    "C59_parameter_name_refuted"
   ],
   "note": "Verdict, unfolding and order proved in full. That accepted types have values and rejected ones none is refuted in general and proved under stated conditions."
  },
  {
   "property": "C60",
   "status": "partial",
   "theorems": [
    "C60_imports",
    "C60_imports_accepted",
    "C60_import_panics",
    "C60_import_never_panics_refuted",
    "C60_unqualified",
    "C60_qualified",
    "C60_qualified_std",
    "C60_private_hidden",
    "C60_method",
    "C60_method_qualified",
    "C60_identifier",
    "C60_variable_first",
    "C60_explicit_wins",
    "C60_explicit_wins_refuted",
    "C60_local_wins_refuted",
    "C60_same_star_refuted",
    "C60_growth",
    "C60_growth_refuted"
   ],
   "note": "Refuted: importing never panics (use *;), an import by name or a local trait method always wins over a wildcard function, repeated stars are harmless, growth keeps the meaning of identifiers. The per-kind versions, the exact panic condition and the exact identifier order are proved."
  },
  {
   "property": "C61",
   "status": "partial",
   "theorems": [
    "C61_faithful",
    "C61_canonical",
    "C61_known",
    "C61_no_growth",
    "C61_again",
    "C61_field_order",
    "C61_faithful_refuted",
    "C61_effects_refuted",
    "C61_canonical_refuted"
   ],
   "note": "Proved when no two kinds of a cycle are the same type and no effect arguments occur on a cycle; canonicity also needs that a cycle does not unfold to an already named type. Each of these conditions is shown necessary by a refutation. Repetition and field order are proved without conditions."
  },
  {
   "property": "C62",
   "status": "partial",
   "theorems": [
    "C62_meaning",
    "C62_unique",
    "C62_rejected",
    "C62_synonym_refuted",
    "C62_array_refuted",
    "C62_crash_refuted",
    "C62_twins_refuted"
   ],
   "note": "Proved for groups where every alias is a variant, tuple, record or function, nothing of the group occurs inside arrays, native and named types, and no type is written twice on a cycle. Each condition is shown necessary by a refutation."
  },
  {
   "property": "C63",
   "status": "partial",
   "theorems": [
    "C63_share",
    "C63_prune",
    "C63_narrow",
    "C63_narrow_safe",
    "C63_pipeline",
    "C63_mutual_refuted"
   ],
   "note": "Merging, dropping and narrowing are proved to preserve behaviour without restriction on digests. Partial because the claim that merging closes mutual recursion is refuted."
  },
  {
   "property": "C64",
   "status": "partial",
   "theorems": [
    "C64_inlining_keeps_behaviour",
    "C64_program_keeps_behaviour",
    "C64_inlining_is_total",
    "C64_growth_is_bounded",
    "C64_never_is_kept",
    "C64_literal_match_refuted"
   ],
   "note": "Behaviour, totality, growth and the keeping of marked calls are proved for every machine whose operations are transparent. Partial because the comparison with a literal is not transparent in the interpreter, and the property is refuted for such an operation."
  },
  {
   "property": "C65",
   "status": "proved",
   "theorems": [
    "C65_capture",
    "C65_restore",
    "C65_same_process",
    "C65_recapture",
    "C65_faults",
    "C65_doubled",
    "C65_names"
   ],
   "note": "Proved for the type graph; the encoding to bytes and the other parts of a snapshot are not modelled."
  },
  {
   "property": "C66",
   "status": "proved",
   "theorems": [
    "C66_checksum",
    "C66_whole",
    "C66_returns",
    "C66_exclusive",
    "C66_finishes",
    "C66_once",
    "C66_patience",
    "C66_tidy",
    "C66_marked",
    "C66_unusable",
    "C66_hit"
   ],
   "note": "Proved for the protocol; decoding, restoring and capturing are parameters."
  },
  {
   "property": "C67",
   "status": "partial",
   "theorems": [
    "C67_meaning",
    "C67_hygiene",
    "C67_settled",
    "C67_items",
    "C67_capture_refuted",
    "C67_lost_update_refuted"
   ],
   "note": "Proved for programs that do not reuse the names next, iter and from_int and whose element assignments do not write the same property in their operands; both conditions are shown necessary by C67_capture_refuted and C67_lost_update_refuted, which witness the defects in the code."
  },
  {
   "property": "C68",
   "status": "proved",
   "theorems": [
    "C68_results_same",
    "C68_calls_same",
    "C68_storage_same",
    "C68_sequence",
    "C68_results_complete",
    "C68_calls_complete",
    "C68_storage_exact",
    "C68_places_complete"
   ],
   "note": ""
  },
  {
   "property": "C69",
   "status": "partial",
   "theorems": [
    "C69_ends",
    "C69_removes_exactly_the_redundant",
    "C69_unchanged_has_none",
    "C69_behaviour_same",
    "C69_block_order_refuted",
    "C69_accessor_refuted"
   ],
   "note": "Proved for blocks in an order compatible with dominance and for functions that do not yield, or whose accessors find the frontier they left; C69_block_order_refuted and C69_accessor_refuted show that both conditions are needed."
  },
  {
   "property": "C70",
   "status": "proved",
   "theorems": [
    "C70_removes_exactly_the_empty",
    "C70_no_lost_marker",
    "C70_behaviour_same"
   ],
   "note": ""
  },
  {
   "property": "C71",
   "status": "partial",
   "theorems": [
    "C71_arithmetic",
    "C71_division",
    "C71_square_root",
    "C71_order",
    "C71_difference_zero",
    "C71_addition_monotone",
    "C71_to_int",
    "C71_from_int",
    "C71_library",
    "C71_signum_partial",
    "C71_signum_refuted"
   ],
   "note": "proved for all finite doubles, except that equal floats need not have the same sign: 0.0 and -0.0 refute it"
  },
  {
   "property": "C72",
   "status": "partial",
   "theorems": [
    "C72_behaviour_partial",
    "C72_before_marks",
    "C72_unset_input_refuted"
   ],
   "note": "partial: asks that what the call reads is set at its new place, and that a result cell which stays outside the loop is empty there; without it the statement is refuted. One move at a time."
  },
  {
   "property": "C73",
   "status": "proved",
   "theorems": [
    "C73_operators",
    "C73_operators_agree",
    "C73_min_max",
    "C73_pair",
    "C73_pair_refuted",
    "C73_clamp",
    "C73_int_order",
    "C73_string_order",
    "C73_float_order",
    "C73_not_equal"
   ],
   "note": "`C73_pair_refuted` shows that the condition of `C73_pair` is needed. `C73_float_order` uses the axioms of the real numbers."
  },
  {
   "property": "C74",
   "status": "partial",
   "theorems": [
    "C74_shown_is_meant",
    "C74_match_ends",
    "C74_found_partial",
    "C74_most_known",
    "C74_shortest_name",
    "C74_order_irrelevant",
    "C74_subscript_refuted"
   ],
   "note": "partial: that an instance always gets a name is refuted for aliases with a subscript type in them; `C74_found_partial` asks that there is none."
  },
  {
   "property": "C75",
   "status": "partial",
   "theorems": [
    "C75_stands_for",
    "C75_denotes_partial",
    "C75_denotes_refuted",
    "C75_found",
    "C75_own_first",
    "C75_most_known",
    "C75_order_irrelevant"
   ],
   "note": "partial: the name shown denotes the alias only if no alias of another module has the name of one of the current module or of an import from a third module; without it the statement is refuted. The condition on imports by name is asked of every alias, although the model needs it only where everything of the module is imported: an attempt that lets an import by name from any module count is therefore not caught (see seeded/LOG.jsonl)."
  }
 ]
}