{
 "C01": {
  "note": "add/sub/mul/neg wrap exactly; abs(MIN) aborts the host or is negative (refuted case)."
 },
 "C02": {
  "note": "Proved for all operands except (MIN,-1), where the host panics (refuted)."
 },
 "C03": {
  "note": "Bitwise, single-bit and counting operations fully; shifts for |s|<64 and rotations for |s|<2^32; larger amounts refuted."
 },
 "C04": {
  "note": "Refuted for 0.0 and -0.0, which are equal but hash differently; proved for all values (products, variants, arrays, sets, maps, nested) without a negative zero. Functions and native iterators are not modelled."
 },
 "C36": {
  "note": "The compiler proper (parsing, checking, emitting) is an arbitrary function of the module table; histories of compile, update, register and reset from a new session. Host modules must be registered over fresh dependencies (Example shows why). Also shows that a dependent of two changed modules is first recompiled without its uses."
 },
 "C43": {
  "note": "Lookup by name is refuted after truncation (a re-associated name loses the surviving older entry); everything else is proved for all histories."
 },
 "C44": {
  "note": "Termination proved for all programs whose control-flow cycles cross a fuel check and whose call cycles cross a depth check; the compiler's insertion of depth checks is proved complete for direct recursion between source functions and refuted for recursion through lambdas (no check is inserted; such a program never ends)."
 },
 "C40": {
  "note": "For bodies whose targets exist and whose registers are defined in the body (what the MIR verifier checks); runs that crash the host are excused (a branch on a place, which verified bodies do not have, panics in the model)."
 },
 "C33": {
  "note": "For every finite type graph; exact for non-recursive types; for recursive ones only the safe direction holds (Example). Finiteness of the graph of instantiated named types is assumed."
 },
 "C34": {
  "note": "The verdict is characterised exactly for all type graphs; existence of a value is refuted in general (one ending variant suffices for the check) and proved when every variant of the cycle has an ending payload; rejection implies no value for cycles through tuples, records and variants, refuted through natives."
 },
 "C32": {
  "note": "For all calls, whatever the run-time indices, with indexing that selects the same part for equal and separate parts for different non-negative literals (as arrays do); refuted for user-defined subscripts. The invariant of disjoint locals is kept by calls. Place expressions have the shape type inference builds. Checks of writes during argument evaluation are not modelled."
 },
 "C22": {
  "note": "For all texts of Unicode scalar values and all byte offsets, over the UTF-8 bytes; offsets are unbounded (sources shorter than 4 GiB). Includes the standard library's binary search as implemented."
 },
 "C19": {
  "note": "For all regular Unicode tables (the facts used are listed in StrSpec) and all normalized strings, except those where a newline, return or tab is followed by a character that may join a letter (refuted there: the escape letter composes with the mark). Escapes proved against a grammar."
 },
 "C21": {
  "note": "For all Unicode tables: append equals concatenation when the appended text starts with a mark or with a character that never joins; refuted for Hangul vowels and trailing consonants, which are letters."
 },
 "C17": {
  "note": "Arrays (element and array separators) and strings. For strings the parts do not contain the separator as a run of characters; as a substring they may (example: x with a cedilla contains x). Joining strings normalizes; substrings of the normalized original are assumed normalized, as Unicode guarantees."
 },
 "C18": {
  "note": "Round trip for all values without the ambiguous shapes (predicate good); the ambiguous shapes are shown not to round-trip (refuted). Reading is total. Float printing and reading are parameters; the fractional floats are those whose text is digits, point, digits and reads back. Normalization tables are parameters with the facts of the Unicode database assumed (regular, ascii_no_mark)."
 },
 "C20": {
  "note": "Values JSON has (json_native) round trip when their strings have no control character followed by a character that may combine (json_string_ok); every other value reads back as its image, which is stable. Strings outside are refuted with a witness. Reading is total and never panics the host. The event reader of the crate json_event_parser is modelled from RFC 8259; float printing and reading are parameters (json_float_ok)."
 },
 "C26": {
  "note": "Proved for all histories of solver operations and any choice of union roots: effects are never lost; concrete lower sides, open upper or lower variables, expression sequences, function bodies, generalized callables and unified arguments keep their effects; fully known upper sides are checked exactly; every operation ends; reported effects are exact for one effect type. The full claim is refuted: C26_refuted lists accepted inclusions and equalities that the solution does not satisfy, C26_body_refuted and C26_reported_list_refuted the lost effects of unify_effects and of the shared cache. Not modelled: which histories type inference produces."
 },
 "C31": {
  "note": "Proved for every program the worklist settles on, every numbering of symbols and every execution whose comparisons and ranges do not overflow: an access left unchecked is the access the check would have let through. The full claim (wraparound included) is refuted by six witnesses. Hypotheses: results disjoint from arguments, parameters used as operands do not escape, no place is overwritten while facts about its initial contents are kept (each shown necessary by a refutation). Not modelled: the rewriting of the access, the escape analysis."
 },
 "C47": {
  "note": "Exact round trip for values without sets and maps; equal value for all others without negative zeros (C08 refutes hashing of negative zero). Text formats under the conditions of C18 and C20; refuted for Some of a record (data text) and DataValue (JSON). Reading any data value ends with a failure or a well-typed value. round, from_int and the printing of floats are parameters; the selection of implementations by the trait solver is read off the type."
 },
 "C48": {
  "note": "Soundness under the condition that no record shape extends another at its end (refuted otherwise); agreement allows never on both sides and more subscript members, as the code does (refuted as equality). Most general solution and termination without conditions. Effects left out; recursive types end the model."
 },
 "C49": {
  "note": "Completeness of the overlap search under two stated assumptions (the solver finds what holds for types without variables; derivable instances are known derivable); unconditional for programs without where-clauses. Refuted: different outputs, and order of declarations."
 },
 "C50": {
  "note": "Proved for sources that are not a variable (or a field of one) which the pattern binds again; refuted in that case."
 },
 "C51": {
  "note": "Proved: enumeration of values, the unique matching arm runs with the right bindings, complete matches are accepted, no other panic. Partial: record patterns are assumed to name existing fields; the exceptions are refuted with witnesses."
 },
 "C52": {
  "note": "Proved for every machine, body, parameter and world; verifier facts (one definition per register, no cell address stored in a cell) are hypotheses."
 },
 "C53": {
  "note": "Proved for every machine whose boolean constants are copyable booleans; one definition per register is a hypothesis."
 },
 "C54": {
  "note": "Refuted when a load goes through an address that was itself loaded; proved for all other bodies with single definitions that precede their uses. Booleans of the machine are copyable."
 },
 "C55": {
  "note": "Refuted for bodies with loops (a block before a loop equal to the one at its end); proved for loop free bodies and for bodies whose look-alike blocks keep their results to themselves. Assumes an operation with a result register gives a value."
 },
 "C56": {
  "note": "Refuted for a return inside a return and for temporaries of accessors whose arguments or ramp fail or transfer control; proved for all other bodies. The net that drops what is left in the frame of a failed call, and yield, are not modelled."
 },
 "C57": {
  "note": "Refuted for fractions with a leading zero or of twenty digits and more, and for the least integer; proved for every other literal. Rounding of decimal text to a float is the standard library's."
 },
 "C58": {
  "note": "Places of names refuted for literals with escapes before them; cutting and value proved for every text."
 },
 "C59": {
  "note": "Verdict, unfolding and order proved in full. That accepted types have values and rejected ones none is refuted in general and proved under stated conditions."
 },
 "C60": {
  "note": "Refuted: importing never panics (use *;), an import by name or a local trait method always wins over a wildcard function, repeated stars are harmless, growth keeps the meaning of identifiers. The per-kind versions, the exact panic condition and the exact identifier order are proved."
 },
 "C61": {
  "note": "Proved when no two kinds of a cycle are the same type and no effect arguments occur on a cycle; canonicity also needs that a cycle does not unfold to an already named type. Each of these conditions is shown necessary by a refutation. Repetition and field order are proved without conditions."
 },
 "C62": {
  "note": "Proved for groups where every alias is a variant, tuple, record or function, nothing of the group occurs inside arrays, native and named types, and no type is written twice on a cycle. Each condition is shown necessary by a refutation."
 },
 "C63": {
  "note": "Merging, dropping and narrowing are proved to preserve behaviour without restriction on digests. Partial because the claim that merging closes mutual recursion is refuted."
 },
 "C64": {
  "note": "Behaviour, totality, growth and the keeping of marked calls are proved for every machine whose operations are transparent. Partial because the comparison with a literal is not transparent in the interpreter, and the property is refuted for such an operation."
 },
 "C65": {
  "note": "Proved for the type graph; the encoding to bytes and the other parts of a snapshot are not modelled."
 },
 "C66": {
  "note": "Proved for the protocol; decoding, restoring and capturing are parameters."
 },
 "C67": {
  "note": "Proved for programs that do not reuse the names next, iter and from_int and whose element assignments do not write the same property in their operands; both conditions are shown necessary by C67_capture_refuted and C67_lost_update_refuted, which witness the defects in the code."
 },
 "C69": {
  "note": "Proved for blocks in an order compatible with dominance and for functions that do not yield, or whose accessors find the frontier they left; C69_block_order_refuted and C69_accessor_refuted show that both conditions are needed."
 },
 "C71": {
  "note": "proved for all finite doubles, except that equal floats need not have the same sign: 0.0 and -0.0 refute it"
 },
 "C72": {
  "note": "partial: asks that what the call reads is set at its new place, and that a result cell which stays outside the loop is empty there; without it the statement is refuted. One move at a time."
 },
 "C73": {
  "note": "`C73_pair_refuted` shows that the condition of `C73_pair` is needed. `C73_float_order` uses the axioms of the real numbers.",
  "status": "proved"
 },
 "C74": {
  "note": "partial: that an instance always gets a name is refuted for aliases with a subscript type in them; `C74_found_partial` asks that there is none."
 },
 "C75": {
  "note": "partial: the name shown denotes the alias only if no alias of another module has the name of one of the current module or of an import from a third module; without it the statement is refuted. The condition on imports by name is asked of every alias, although the model needs it only where everything of the module is imported: an attempt that lets an import by name from any module count is therefore not caught (see seeded/LOG.jsonl)."
 }
}