{
 "claims": [
  {
   "property": "C01",
   "status": "proved",
   "theorems": [
    "C01_remove_extended_equivalent",
    "C01_remove_extended_shape"
   ],
   "note": "tree model of the pass; equivalence on all traces and absence of extended operators"
  },
  {
   "property": "C02",
   "status": "partial",
   "theorems": [
    "C02_binary_equivalent",
    "C02_binary_shape",
    "C02_flatten_equivalent",
    "C02_arith_binary_value",
    "C02_arith_binary_shape",
    "C02_arith_flatten_value",
    "C02_flatten_arity_refuted"
   ],
   "note": "equivalence and binary shape proved; the arity-four bound after flattening is refuted; float + and * not modelled"
  },
  {
   "property": "C03",
   "status": "partial",
   "theorems": [
    "C03_bnf_equivalent",
    "C03_bnf_shape_partial",
    "C03_bnf_shape_refuted",
    "C03_nnf_refuted",
    "C03_nnf_equivalent_partial",
    "C03_nnf_no_xor_partial",
    "C03_nnf_shape_partial",
    "C03_nnf_shape_refuted"
   ],
   "note": "BNF equivalence proved for all formulas; NNF refuted for negated xor and proved otherwise; normal-form shape refuted in general, proved on the fragment with rules"
  },
  {
   "property": "C04",
   "status": "partial",
   "theorems": [
    "C04_rewrites_equivalent_partial",
    "C04_rewrites_legal_partial",
    "C04_rewrites_eq_refuted",
    "C04_rewrites_nary_refuted"
   ],
   "note": "refuted for `false == p` and for conjunctions/disjunctions with more than two operands; equivalence proved for every legal tree with binary and/or and equalities against true or non-constant operands"
  },
  {
   "property": "C05",
   "status": "proved",
   "theorems": [
    "C05_rules_equivalent",
    "C05_saturation_equivalent"
   ],
   "note": "all 85 rules transcribed from the .egg files; closure over every rule schedule; i64 overflow and the egglog engine itself are outside the model"
  },
  {
   "property": "C09",
   "status": "proved",
   "theorems": [
    "C09_release_equivalent",
    "C09_release_shape",
    "C09_sort_equivalent",
    "C09_sort_shape"
   ],
   "note": "tree model of both passes"
  },
  {
   "property": "C07",
   "status": "proved",
   "theorems": [
    "C07_decompose_equivalent",
    "C07_decompose_shape",
    "C07_decompose_legal",
    "C07_unroll_equivalent",
    "C07_unroll_shape",
    "C07_unroll_defined"
   ],
   "note": "tree model of both functions; result shape included; unrolling is refused exactly when a release occurs"
  },
  {
   "property": "C08",
   "status": "partial",
   "theorems": [
    "C08_future_window",
    "C08_past_window_partial",
    "C08_since_window_refuted",
    "C08_once_window_refuted",
    "C08_past_causal",
    "C08_delay_after_expansion_refuted"
   ],
   "note": "proved for all future-time formulas built directly; refuted for past-time operators and for delays kept across definition expansion"
  },
  {
   "property": "C14",
   "status": "partial",
   "theorems": [
    "C14_expand_meaning",
    "C14_meaning_exists",
    "C14_no_names_left_partial",
    "C14_macro_semantics_partial",
    "C14_alias_refuted"
   ],
   "note": "refuted for a definition whose body is a bare name; otherwise proved for definition chains of any length and formula references"
  },
  {
   "property": "C06",
   "status": "proved",
   "theorems": [
    "C06_cse"
   ],
   "note": "mutable shared graph, string keys as printed by the code; FT and PT sets processed in turn"
  },
  {
   "property": "C10",
   "status": "partial",
   "theorems": [
    "C10_pipeline_equivalent_partial",
    "C10_pipeline_shape",
    "C10_pipeline_refuted"
   ],
   "note": "inherits the restriction of C04; output shape proved for all inputs"
  },
  {
   "property": "C15",
   "status": "proved",
   "theorems": [
    "C15_postorder"
   ],
   "note": "stack machine of the generator on arbitrary acyclic graphs with sharing"
  },
  {
   "property": "C21",
   "status": "proved",
   "theorems": [
    "C21_truth_and_time_recovered",
    "C21_word_is_its_parts",
    "C21_set_keeps_time",
    "C21_infinity"
   ],
   "note": "32-bit words as N; also shows which verdict coincides with the reserved infinity word"
  },
  {
   "property": "C22",
   "status": "proved",
   "theorems": [
    "C22_queue_delivers"
   ],
   "note": "word-level queue, any number of consumers, any interleaving; capacity condition shown to be needed by an example"
  },
  {
   "property": "C23",
   "status": "proved",
   "theorems": [
    "C23_reports_sound",
    "C23_reports_in_order",
    "C23_section_sound",
    "C23_section_in_order"
   ],
   "note": "all programs of the operators the compiler emits, any sharing, neutral constants, queues with reach+2 slots; times as nat (packing is C21, word-level queues C22); also for the future-time section of a program whose other instructions are arbitrary"
  },
  {
   "property": "C24",
   "status": "proved",
   "theorems": [
    "C24_reports_timely",
    "C24_section_timely",
    "C24_delay_is_wpd"
   ],
   "note": "same programs as C23; the delay is the compiler's wpd; also for the future-time section of any program"
  },
  {
   "property": "C25",
   "status": "partial",
   "theorems": [
    "C25_steps_end",
    "C25_past_steps_end",
    "C25_sections_end",
    "C25_fuel_irrelevant",
    "C25_absorbing_constant_refuted",
    "C25_past_neutral_constant_refuted"
   ],
   "note": "refuted: any program with an absorbing constant operand never finishes a step, nor does true && O[1,2] p; proved for future-time programs without absorbing constants and for once/historically programs without constants next to boolean connectives (both monitors); also when one program holds both kinds of sections"
  },
  {
   "property": "C26",
   "status": "partial",
   "theorems": [
    "C26_computed_sizes_refuted",
    "C26_conjunction_refuted",
    "C26_enough_sizes_sufficient",
    "C26_default_sizes_sufficient",
    "C26_computed_size_least",
    "C26_scq_constant_sufficient",
    "C26_past_scq_constant_sufficient",
    "C26_past_computed_sizes_refuted",
    "C26_past_enough_sizes_sufficient",
    "C26_past_default_sizes_sufficient",
    "C26_sections_constant_sufficient",
    "C26_sections_enough_sizes_sufficient",
    "C26_sections_default_sizes_sufficient",
    "C39_default_sizes_end_to_end",
    "C39_sections_default_sizes_end_to_end"
   ],
   "note": "Refuted for the default sizes by two programs, on both monitors. Proved, for either monitor: a per-node inequality on sizes that is enough for every future-time program; that the default sizes meet it for the programs called modest (until and release only as F and G, and operands that may write several verdicts in one step do not lag behind their siblings); that any added constant at least every reach meets it; that the computed size is the least that covers the siblings. For once and historically, and for programs with both sections, a constant above every lead or delay is enough; the default sizes are enough, for such programs too, when the future-time part is modest and no past-time operator is inside another, and are refuted for a nested past-time formula."
  },
  {
   "property": "C27",
   "status": "partial",
   "theorems": [
    "C27_once_historically_sound",
    "C27_once_historically_in_order",
    "C27_once_historically_timely",
    "C27_section_sound",
    "C27_section_timely",
    "C27_since_refuted",
    "C27_trigger_refuted"
   ],
   "note": "proved for once and historically, nested and under boolean connectives, in both monitors: sound, in order and without delay; refuted for since and trigger on atoms; also for a section of a program whose other instructions are arbitrary"
  },
  {
   "property": "C17",
   "status": "partial",
   "theorems": [
    "C17_packs_iff_fits",
    "C17_round_trip_partial",
    "C17_temporal_round_trip",
    "C17_float_constant_value",
    "C17_round_trip_refuted",
    "C17_rust_round_trip"
   ],
   "note": "C monitor: refuted for float constants with bit 31 of the double set (0.1); proved for all other instruction lists of any length, header and aux included. The Rust loader reads back all constants that fit (C17_rust_round_trip)."
  },
  {
   "property": "C18",
   "status": "partial",
   "theorems": [
    "C18_accepted",
    "C18_constant_loaded_partial",
    "C18_negative_refuted",
    "C18_unsigned_refuted"
   ],
   "note": "refuted for every negative constant; proved for the non-negative accepted ones"
  },
  {
   "property": "C16",
   "status": "partial",
   "theorems": [
    "C16_assembly_well_formed",
    "C16_shared_node_refuted"
   ],
   "note": "The assembler emits a well-formed program (every node computed once, operands refer to earlier instructions, one queue per instruction) for every graph whose owning nodes are not shared between the future-time and past-time sections; refuted with a witness when they are shared."
  },
  {
   "property": "C19",
   "status": "proved",
   "theorems": [
    "C19_queue_memory",
    "C19_rust_queue_memory"
   ],
   "note": "Also for the Rust monitor, whose queues lie in a vector without parameter blocks. Queues loaded from an assembled program are disjoint, of the requested size and inside the generated bounds."
  },
  {
   "property": "C20",
   "status": "partial",
   "theorems": [
    "C20_instruction_bound",
    "C20_booleanizer_atomics",
    "C20_generated_signals",
    "C20_atomics_partial",
    "C20_atomics_refuted",
    "C20_signals_refuted",
    "C20_outputs_refuted"
   ],
   "note": "Generated bounds are sufficient for instructions, queue slots, booleanizer atomics and generated signal maps; refuted for atomics without the booleanizer, signals with a trace header, and output verdicts."
  },
  {
   "property": "C39",
   "status": "proved",
   "theorems": [
    "C39_end_to_end",
    "C39_constant_free",
    "C39_signals_to_reports",
    "C39_csv_to_reports",
    "C39_rust_end_to_end",
    "C39_rust_signals_to_reports",
    "C39_sections_end_to_end",
    "C39_rust_sections_end_to_end",
    "C39_sections_signals_to_reports",
    "C39_rust_sections_signals_to_reports",
    "C39_past_constant_free",
    "C39_default_sizes_end_to_end",
    "C39_default_sizes_refuted",
    "C39_sections_default_sizes_end_to_end",
    "C39_rust_sections_default_sizes_end_to_end"
   ],
   "note": "Proved for the C monitor and for the Rust monitor, which in addition does not panic. C39_signals_to_reports adds the booleanizer: from signal values to reports; C39_csv_to_reports starts from the text of a trace file (C46). The C39_sections theorems cover programs with both sections, the past-time one over once and historically (since and trigger proper are refuted under C27). Supported shape: binary connectives in the source, no constant that decides an operator (constant-free formulas qualify, C39_constant_free and C39_past_constant_free), no node shared between the two sections (C28_shared_definition_refuted), queue constant above every delay and lead. Every graph that represents the formulas (shared or not) is covered; text parsing is C53. C39_default_sizes_end_to_end needs no queue constant: C monitor, future-time formulas whose operands keep up with each other (DefaultSpec.v: until and release as F and G, an operand that can deliver several verdicts at once no slower than its sibling), node delays those of the formulas; the C39_sections_default theorems say the same of programs with both sections, for both monitors, if no past-time operator is inside another; for other formulas the default sizes give wrong reports end to end (C39_default_sizes_refuted, the case C26 refutes), which is why the statement asks for the constant. The excluded shapes are those refuted under C04, C25 and C26."
  },
  {
   "property": "C28",
   "status": "partial",
   "theorems": [
    "C28_atomics_evaluated",
    "C28_values_unique",
    "C28_shared_definition_refuted",
    "C28_rust_atomics",
    "C28_rust_values_unique",
    "C28_rust_power_refuted"
   ],
   "note": "The same for the Rust loader and booleanizer, whose integer arithmetic saturates (refuted for overflowing powers of odd negative numbers). From the program graph through assembler, binary and C loader to the atomics after every step below 2^31, any expression depth and sharing, all integer and float operators (float operations abstract), signals, time and prev. Constants must be ones the binary format handles (C17, C18), numeric nodes not shared between the future-time and past-time sections (refuted otherwise), no prev directly below a prev (C29). Expressions must have a value: where C leaves the result undefined nothing is claimed."
  },
  {
   "property": "C29",
   "status": "partial",
   "theorems": [
    "C29_prev_shifts",
    "C28_atomics_evaluated",
    "C29_nested_prev_refuted"
   ],
   "note": "Proved for every expression in which no prev is directly the operand of another prev; refuted for directly nested prev, which definitions make possible."
  },
  {
   "property": "C36",
   "status": "partial",
   "theorems": [
    "C36_refuted",
    "C36_distinct_iff",
    "C36_automatic_distinct",
    "C36_every_member"
   ],
   "note": "Automatic numbering can repeat an explicit value ({A:1, B, C}); proved: members are distinct exactly when no later automatic value hits an explicit one, in particular for all-automatic enumerations, and every member gets a value."
  },
  {
   "property": "C37",
   "status": "partial",
   "theorems": [
    "C37_reads_partial",
    "C37_range_refuted",
    "C37_index_refuted",
    "C37_assigned_or_reported",
    "C37_generated_partial",
    "C37_generated_refuted",
    "C37_accepted_lines"
   ],
   "note": "Reading is exact for plain symbols, elements below 100 and ranges that start below 10; ranges from 10 and indices of three digits are misread (refuted with witnesses). Generated maps read back under the same bound. ASCII files."
  },
  {
   "property": "C38",
   "status": "partial",
   "theorems": [
    "C38_composite_in_order",
    "C38_guards_hold",
    "C38_guard_blocks",
    "C38_assembler_guards",
    "C38_transitive_guards_refuted",
    "C38_return_code",
    "C38_assembler_input",
    "C38_command_outcome",
    "C38_push_pop"
   ],
   "note": "Commands run in order and stop at the first failure; no command runs with a guard of its own or a direct prerequisite unmet, so whatever is assembled meets the spelled-out conditions; a command's outcome and a push with its pop are settled. The copy made by push is any function here, and push leaves the live state alone; what the copy loses and which live tables push changes is C64. Prerequisites of prerequisites are not checked (refuted)."
  },
  {
   "property": "C40",
   "status": "partial",
   "theorems": [
    "C40_sum_exact",
    "C40_sum_bounds",
    "C40_rounding_refuted",
    "C40_monotone",
    "C40_missing_operator"
   ],
   "note": "The estimate is the sum of truncated latencies: exact when the clock divides them, below the true sum otherwise (refuted with the default table), 0 when an operator is missing from the table."
  },
  {
   "property": "C12",
   "status": "proved",
   "theorems": [
    "C12_expanded_in_place",
    "C12_one_status",
    "C12_lines_true",
    "C12_end_to_end"
   ],
   "note": "Contracts anywhere in any program; statuses are exclusive and exhaustive; printed lines are true, for reports in general and through the whole chain of C39 for future-time programs. Reporting every contract is C42."
  },
  {
   "property": "C41",
   "status": "partial",
   "theorems": [
    "C41_names_partial",
    "C41_section_order_refuted"
   ],
   "note": "True when no past-time section precedes a future-time one; otherwise names are swapped (refuted)."
  },
  {
   "property": "C42",
   "status": "partial",
   "theorems": [
    "C42_lines_complete",
    "C42_generated_bound_refuted",
    "C42_same_label_refuted"
   ],
   "note": "Complete when the contract table has an entry to spare and labels are distinct; with the generated bound the C loader drops the last contract, and a label reused in another section hides the first contract (both refuted)."
  },
  {
   "property": "C11",
   "status": "partial",
   "theorems": [
    "C11_set_aggregation_partial",
    "C11_result_sound_partial",
    "C11_shadowing_rejected",
    "C11_member_index_refuted",
    "C11_input_name_refuted",
    "C11_definition_name_refuted",
    "C11_singleton_refuted"
   ],
   "note": "Desugaring (struct accesses, array accesses, unrolling of the five aggregations with substitution, struct accesses, array comparison) succeeds and preserves the value at every time, for any leaves and operators, nested aggregations and counting with 32-bit sums included. Missing: sets that contain aggregations are covered only for results that exist; array members of bound variables are compiled wrongly (refuted), bound variables named like inputs or definitions are captured (refuted), one-element sets give a conjunction the monitor never reports (refuted). Sharing of nodes is not represented."
  },
  {
   "property": "C13",
   "status": "partial",
   "theorems": [
    "C13_arrays_structs_partial",
    "C13_index_range",
    "C13_slice_range_refuted",
    "C13_longer_array",
    "C13_nested_access_refuted",
    "C13_unequal_lengths_refuted",
    "C13_inequality_refuted",
    "C13_index_check_refuted"
   ],
   "note": "Element, slice and member accesses and comparisons of arrays: desugaring succeeds, leaves none of them and keeps the value at every time, where indexed arrays are written out once struct accesses are followed. Missing: alternating member and element accesses (refuted), comparison of arrays of different length and != (refuted), negative and one-past-the-end indices in the type checker (refuted)."
  },
  {
   "property": "C30",
   "status": "partial",
   "theorems": [
    "C30_rust_finishes",
    "C30_no_contradiction",
    "C30_same_verdicts",
    "C30_rust_sound",
    "C30_operators_agree",
    "C30_same_time_refuted",
    "C30_booleanizers_agree",
    "C30_overflow_refuted",
    "C30_float_comparison_refuted",
    "C30_negative_exponent_refuted",
    "C30_float_constant_refuted",
    "C30_same_program",
    "C30_sections_finish",
    "C30_sections_no_contradiction",
    "C30_sections_same_verdicts",
    "C30_sections_enough_finish",
    "C30_sections_enough_no_contradiction",
    "C30_sections_enough_same_verdicts"
   ],
   "note": "Both loaders make the same program (instructions, queue lengths, bounds) of any assembled binary, future-time and past-time. Numeric expressions: both booleanizers and loaders hand the same atomics to the temporal engine, from any binary, as long as integer operations have exact results and float comparisons do not depend on the tolerance; refuted without that. The Rust queues, operators and step loop are modelled from their own source, with panics on unsigned underflow as a separate outcome. For future-time programs whose queues are just long enough (the sizes of C26, which the compiler computes), both monitors finish, give the same verdict for each time, in increasing order, both by the same deadline. The literal claim of identical report sequences is refuted: the C queue does not compact after a first (false,0), so C may report later and split reports otherwise than Rust. Programs with a past-time section over once and historically: the same (C30_sections theorems; with queues just long enough and no nested past-time operator, the C30_sections_enough theorems); since and trigger in general: instruction-level agreement (C30_operators_agree)."
  },
  {
   "property": "C31",
   "status": "partial",
   "theorems": [
    "C31_booleanizer_clean",
    "C31_c_reload_refuted",
    "C31_c_cleared",
    "C31_c_unused_partial",
    "C31_rust_reload_refuted",
    "C31_rust_reload_partial"
   ],
   "note": "Proved for everything computed from the signals: atomics after a reload equal those of a new monitor whatever the old buffers hold. Refuted for the temporal engines: the C resets (soft and hard) keep read/write pointers and next_time of the control blocks, so a reloaded monitor reports wrong verdicts; the Rust reset zeroes the wrong counter, so the old instructions stay in front of the new ones. The C temporal part is modelled for reloads that keep the queue layout. Positive: zeroed control blocks plus a hard reset give the fresh state from every state; Rust reload is clean if there were no temporal instructions."
  },
  {
   "property": "C34",
   "status": "partial",
   "theorems": [
    "C34_monitor_partial",
    "C34_short_intervals",
    "C34_constant_refuted",
    "C34_equivalence_refuted",
    "C34_until_refuted",
    "C34_wide_interval_refuted"
   ],
   "note": "Whole generated program (rings, word delays, in-place buffers, clearing) for all formulas over atoms, false, !, &&, ||, ->, xor, F, G and U whose intervals leave a remainder below one word or of whole words (always so up to three words), and U whose loops stop in time. Wrong in the code, hence refuted: constant true, <->, U with a lower bound moving it past a power of two, longer remainders (undefined shift). raw_bytes input and printf formatting are not modelled."
  },
  {
   "property": "C32",
   "status": "proved",
   "theorems": [
    "C32_supported",
    "C32_exact",
    "C32_equivalence",
    "C32_strict",
    "C32_strict_complete"
   ],
   "note": "The emitted bit-vector terms (sat.py 171-406) with SMT-LIB's meaning of the operators, over formulas on Boolean signals. Non-strict: satisfiable exactly when some trace satisfies the formula at time 0, for every legal formula for which a query is produced; also when the query asks for two formulas to differ. Strict: satisfiable exactly when some non-empty trace, cut off at its end, satisfies the formula. The solver itself and the concrete text of the query are not modelled."
  },
  {
   "property": "C33",
   "status": "partial",
   "theorems": [
    "C33_qf_supported",
    "C33_uflia_supported",
    "C33_uflia_exact_partial",
    "C33_uflia_equivalence_partial",
    "C33_uflia_strict_partial",
    "C33_uflia_strict_complete",
    "C33_qf_short_partial",
    "C33_qf_strict",
    "C33_qf_strict_complete",
    "C33_qf_unsat_refuted",
    "C33_qf_sat_refuted",
    "C33_uflia_unsat_refuted",
    "C33_uflia_sat_refuted",
    "C33_uflia_comparison_refuted",
    "C33_uflia_strict_refuted",
    "C33_strict_disagree_refuted"
   ],
   "note": "The claim is false as stated. UFLIA: exact for conjunctions and disjunctions of two and comparisons of temporal-free formulas; wrong both ways beyond that because the computation length looks at two operands only (the conjunction of three specifications in check_sat). QF_UFLIA: the length passed is wpd instead of wpd+1, so \"p\" is reported unsatisfiable and \"G[1,1] false\" satisfiable. Strict queries: characterised (finite traces of the documentation for UFLIA, except F[0,0] and F[1,1]; truncated traces for QF_UFLIA and QF_BV); the theories disagree. Arithmetic is C59, symbolic bounds and mission time are C58."
  },
  {
   "property": "C35",
   "status": "partial",
   "theorems": [
    "C35_sound_partial",
    "C35_times",
    "C35_booleanizer",
    "C35_gaps_refuted",
    "C35_mixed_time_refuted",
    "C35_definition_place_refuted",
    "C35_duplicate_refuted",
    "C35_numbers_refuted"
   ],
   "note": "type_check.py modelled function by function on what parse_c2po.py builds. Proved: in every accepted program whose names are distinct, every definition and specification evaluates (in an independent evaluator over arbitrary inputs of the declared types and arbitrary arithmetic) without going wrong, except in seven listed ways, and specifications are Boolean; operators written in a specification are those of its section; without the Booleanizer no accepted program contains an operation needing it. Refuted (full property): arithmetic on Booleans, ordering of Booleans, index equal to the length, wrong number of struct members, bound variables outside their scope, modulo 0, enum-valued prev from a definition; mixed time through definitions; duplicate names across sections; numbers without the Booleanizer."
  },
  {
   "property": "C43",
   "status": "partial",
   "theorems": [
    "C43_round_trip_partial",
    "C43_xor_refuted",
    "C43_mixed_refuted",
    "C43_single_operand_refuted"
   ],
   "note": "Proved for every list of formulas of the standard that does not mix future and past operators. Missing, because false: formulas with xor, specifications with both kinds of operators and conjunctions of one operand are written but not accepted on reading (refuted with witnesses)."
  },
  {
   "property": "C44",
   "status": "partial",
   "theorems": [
    "C44_grammar_partial",
    "C44_unambiguous",
    "C44_illegal_characters_refuted",
    "C44_trailing_comment_refuted",
    "C44_documented_precedence_refuted"
   ],
   "note": "Proved for every text that spells tokens, with blanks, tabs and comments: accepted exactly when the grammar derives it, with one reading. Missing, because false: texts with characters outside the standard are accepted with those characters dropped. A comment behind a formula hides the end of its line, and the reference manual's precedences differ from the reader's (both refuted)."
  },
  {
   "property": "C45",
   "status": "partial",
   "theorems": [
    "C45_overflow_reports_partial",
    "C45_missed_overflow_refuted",
    "C45_panic_refuted"
   ],
   "note": "Proved: no report without an overflow in the same step; with one arithmetic instruction, a report exactly when it overflows. Missing, because false: with several arithmetic instructions each overwrites the report, so only the last one counts; and -2^31 % -1 panics instead of being reported."
  },
  {
   "property": "C46",
   "status": "partial",
   "theorems": [
    "C46_reader_partial",
    "C46_columns_partial",
    "C46_numbers_partial",
    "C46_short_rows",
    "C46_time_stamps",
    "C46_no_header",
    "C46_empty_cell_refuted",
    "C46_documented_example_refuted",
    "C46_long_line_refuted",
    "C46_whole_float_refuted",
    "C46_repeated_name_refuted"
   ],
   "note": "Proved for every table whose cells are not empty, whose rows do not start with # or @ and whose lines fit the buffer: one step per row, each signal reads its column (Booleans; integers and numbers with a decimal point for the booleanizer); cells missing at the end of a row leave signals as they were; time stamps set the time of a row. Missing, because false: an empty cell shifts the rest of the row, blanks before a 0 make it true (also in the documented example), lines longer than BUFSIZ are split, whole numbers in real columns are stored as integers, a repeated name is an error."
  },
  {
   "property": "C47",
   "status": "partial",
   "theorems": [
    "C47_generated_partial",
    "C47_gap_refuted"
   ],
   "note": "Proved for every numbering without gaps, with arbitrary values in place of the random ones. Missing, because false: when the numbers have gaps (a map file that lists more signals than the program declares) the columns do not match the numbers."
  },
  {
   "property": "C48",
   "status": "partial",
   "theorems": [
    "C48_readers_agree_partial",
    "C48_same_numbers",
    "C48_zeros_refuted",
    "C48_comment_refuted"
   ],
   "note": "Proved for every table of 32-bit integers in plain decimal form, and for the numbers of single cells with the booleanizer. Missing, because false: a 0 with blanks, a carriage return or a leading zero is true in C and false in Rust; a later comment line is a row in C. The csv crate is trusted to behave as documented."
  },
  {
   "property": "C49",
   "status": "proved",
   "theorems": [
    "C49_expressions",
    "C49_files",
    "C49_one_reading",
    "C49_one_expression"
   ],
   "note": "Reader and grammar agree on every token sequence, both ways; the grammar gives one reading. The precedence table is that of parse_c2po.py (the manual gives none for C2PO files)."
  },
  {
   "property": "C50",
   "status": "partial",
   "theorems": [
    "C50_spelling_partial",
    "C50_layout",
    "C50_names_sound",
    "C50_names_refuted",
    "C50_prev_names_refuted",
    "C50_illegal_refuted",
    "C50_minus_refuted"
   ],
   "note": "Proved: every text that spells tokens, with any blanks, line breaks and comments, is cut into these tokens, and whatever name or decimal the lexer yields is one. Missing, because false: names beginning with prev and the names T and TAU are cut or taken as operators, illegal characters are skipped and the file accepted, and x-1 is two tokens."
  },
  {
   "property": "C51",
   "status": "partial",
   "theorems": [
    "C51_written_partial",
    "C51_read_again_partial",
    "C51_function_refuted",
    "C51_count_refuted",
    "C51_enum_refuted",
    "C51_call_refuted",
    "C51_float_refuted",
    "C51_label_refuted"
   ],
   "note": "Proved for every program without the shapes listed: sections, types, declarations, definitions, contracts, all other expressions, any size. Missing, because false: sqrt and abs of plain operands, counting aggregations, enums, calls without arguments, floats written with an exponent, and user labels of the form __x__ (refuted with witnesses)."
  },
  {
   "property": "C52",
   "status": "partial",
   "theorems": [
    "C52_ids",
    "C52_labels_refuted"
   ],
   "note": "Ids: proved for every accepted file. Missing, because false: the label made for a specification without one may be a label the user wrote."
  },
  {
   "property": "C53",
   "status": "partial",
   "theorems": [
    "C53_text_to_reports_partial",
    "C53_rust_text_to_reports_partial"
   ],
   "note": "Proved for the C and the Rust monitor for all files over Boolean inputs, with definitions, labels used as formulas, and future-time and past-time (once, historically) sections in any order, and for all traces of non-empty cells whose rows have a cell per column. The queue constant is above the delays and leads and the memory sizes fit (C19, C26). Excluded because refuted: names used by specifications of both kinds (C16), since and triggered (C27), definitions whose operators are not of the kind of the section before them (C35), Boolean constants in formulas (C25), definitions that only rename a definition (C14), names declared twice. Missing: contracts, structs, enums, arithmetic (C12, C13, C28, C36 separately)."
  },
  {
   "property": "C54",
   "status": "partial",
   "theorems": [
    "C54_encoding_sound",
    "C54_encoding_total",
    "C54_reader_grammar",
    "C54_eqsat_equivalent_partial",
    "C54_bare_atomic",
    "C54_bare_atomic_refuted",
    "C54_past_section",
    "C54_past_section_refuted"
   ],
   "note": "The formula bound by the commands is the formula (for any sharing), the reader accepts exactly its grammar, and any term of the class printed in any layout is read back as an equivalent formula over the same atomics with legal intervals. False when the extracted term is one atomic (KeyError or another input) and for timed results of programs ending in a PTSPEC section (refused): both refuted, and described by theorems. egglog is trusted to extract from the class; what replacing does to the parents of shared atomics is not part of this property."
  },
  {
   "property": "C55",
   "status": "partial",
   "theorems": [
    "C55_edits_complete",
    "C55_cse_complete",
    "C55_sizes",
    "C55_recorded_end_to_end",
    "C55_greedy_complete_partial",
    "C55_ilp_complete_partial",
    "C55_greedy_shared_input_refuted",
    "C55_ilp_repeated_input_refuted"
   ],
   "note": "Every sequence of constructions and replacements keeps the record complete; CSE by the record equals CSE by true users and keeps the record complete and exact; queue sizes from a complete record are at least, from an exact one equal to, those of the true siblings, and the whole back end over the record gives the reports of C39. Equality saturation keeps the record complete when no other part of the program uses the atomics of the formula (greedy), and when also each atomic occurs once in the formula (integer programming). Missing, because false: with shared inputs users are lost and a formula is reported wrongly (both refuted down to the report)."
  },
  {
   "property": "C56",
   "status": "partial",
   "theorems": [
    "C56_ilp_equivalent",
    "C56_reading",
    "C56_document_equivalent",
    "C56_solvable",
    "C56_no_temporal_rules_refuted",
    "C56_least_memory_refuted"
   ],
   "note": "Any solution of the constraints (not only an optimum) is turned, without an exception and by a recursion that ends even if classes are cyclic, into a formula equivalent to the specification, with legal intervals, no further atomics and, extended operators off, none of ->, G, F. Solutions exist exactly if the class of the formula holds a term over the allowed operators. Missing, because false: with temporal rules and extended operators off there may be no solution, and the optimum may need more queue memory than another term of the class (both refuted, on e-graphs proved to be the saturated ones). egglog is trusted to put only derivable terms in the class, Gurobi to return exact integers meeting the constraints. Reading the JSON document egglog writes is proved to give the e-graph the document describes, and the chain starts from it."
  },
  {
   "property": "C57",
   "status": "partial",
   "theorems": [
    "C57_default_options_partial",
    "C57_rust_default_options_partial",
    "C57_named_formula_refuted",
    "C57_past_formula_refuted"
   ],
   "note": "Proved: with the delays the compiler itself records, and any --scq-constant from 0 on, the reports on files whose names stand for formulas without temporal operators (and whose compiled future-time formulas are modest, see C39, and past-time formulas not nested) are in order, true and timely, from the C monitor and (on tables of 32-bit integers) from the Rust monitor. Refuted for names of temporal formulas, in both monitors: the recorded delay of their users is too small and so are the queues. Refuted for past-time formulas with nested operators."
  },
  {
   "property": "C58",
   "status": "partial",
   "theorems": [
    "C58_pair_partial",
    "C58_mission_partial",
    "C58_strict_partial",
    "C58_file_partial",
    "C58_verdict",
    "C58_negative_refuted",
    "C58_mission_refuted",
    "C58_backwards_refuted",
    "C58_unencoded_refuted"
   ],
   "note": "Proved for files without mission time whose lower bounds cannot come out negative: the query for two formulas is unsatisfiable exactly if they are equivalent for all values of the bounds, and the word printed for the file is right if the solver is. With a mission time, and with --strict, the formulas are compared on finite traces (of M + 1 steps, of every length) in the documented reading, provided no eventually is written with [0,0] or [1,1]. Refuted otherwise: a lower bound such as b0-1 is let negative; with a mission time what happens after it is disregarded (test fret_43); an interval that ends before it starts is not rejected and makes its formula equivalent to any other; a pair that cannot be encoded does not keep equiv from being printed. The text of .equiv files is C60. Not modelled: division in bounds."
  },
  {
   "property": "C59",
   "status": "partial",
   "theorems": [
    "C59_encoded",
    "C59_exact_partial",
    "C59_monitor",
    "C59_unsat_partial",
    "C59_overflow_refuted",
    "C59_rounding_refuted",
    "C59_range_refuted",
    "C59_zero_refuted"
   ],
   "note": "Proved for specifications whose divisors are constants other than 0 and whose logical part is one C33 proves the query right for: the query is satisfiable exactly if exact integers satisfy the formula; on inputs that keep every intermediate value within 32 bits and divide no negative number the monitor's atomic formulas are those of exact integers, so what is reported unsatisfiable never holds, at no time. Refuted otherwise: x + 1 < x is reported unsatisfiable but true in the monitor for the largest x; x / 2 + 1 == 0 && x + 1 == 0 is reported satisfiable but never true, as the monitor rounds towards 0; x > 2147483647 and x / 0 == 5 are reported satisfiable but never true."
  },
  {
   "property": "C60",
   "status": "partial",
   "theorems": [
    "C60_grammar_partial",
    "C60_unambiguous",
    "C60_every_file",
    "C60_one_file",
    "C60_verdict_partial",
    "C60_precedence_refuted",
    "C60_illegal_characters_refuted",
    "C60_trailing_comment_refuted",
    "C60_empty_line_refuted"
   ],
   "note": "Proved for every text that spells tokens, with blanks, tabs and comments: accepted exactly if the grammar derives it, with one reading; every file C58 speaks about has a text and a text stands for one file, so the word printed is about the formulas in the text (under C58's conditions). Missing, because false: + - * / have one precedence, so b0 + b1 * 2 is read as (b0 + b1) * 2; texts with other characters are accepted without them; a comment behind a formula and an empty line make a file unreadable (all refuted)."
  },
  {
   "property": "C61",
   "status": "partial",
   "theorems": [
    "C61_right_words",
    "C61_success",
    "C61_silent",
    "C61_warned",
    "C61_every_line",
    "C61_strict_unsat",
    "C61_uflia_right_words_partial",
    "C61_uflia_silent_partial",
    "C61_uflia_program_refuted",
    "C61_uflia_silent_refuted",
    "C61_past_stops_refuted"
   ],
   "note": "Proved for bit-vector queries (not strict): every word printed or warned is right, about a specification and about the program, also if the command fails later; it succeeds exactly if all formulas are in the fragment of C32 and the solver answers; success without a warning means that one trace meets all formulas, and with a deciding solver a warning means that none does. For every theory a successful run with --print has one line per formula, in order, and one for the program; with --strict whatever is said to be unsat is, whatever the theory and the number of specifications. With uninterpreted functions proved for programs of up to two formulas over the operators of C33. Refuted otherwise: with uflia four specifications that exclude each other are shown as sat and draw no warning; a past-time specification ends the command for every theory, with nothing said about the program. The solver is trusted to be right when it says sat or unsat."
  },
  {
   "property": "C62",
   "status": "partial",
   "theorems": [
    "C62_all_partial",
    "C62_one",
    "C62_others_kept",
    "C62_past_refuted",
    "C62_file_lost_refuted"
   ],
   "note": "Proved for every encoding and every previous content of the location: no exception; without a formula, success exactly if every future-time formula has a query, each of which is then found under its name; with a formula, success exactly if it names one with a query, which is then found; other files of a directory keep their contents. Names are assumed distinct, which the type checker enforces. Missing, because false: formulas of PTSPEC are not written, though the command succeeds; a command that fails has already removed an existing file (both refuted)."
  },
  {
   "property": "C63",
   "status": "partial",
   "theorems": [
    "C63_format_partial",
    "C63_format_simple_partial",
    "C63_percent_refuted",
    "C63_backslash_refuted",
    "C63_continued_refuted"
   ],
   "note": "Proved for values without percent sign and backslash: every placeholder and escape is replaced by what it stands for and the rest kept, provided no placeholder together with what is printed after it spells a longer one; only %asmtl can be continued so (to %asmtltemp), and without it there is no such condition. Missing, because false: file names with a percent sign or a backslash are themselves taken for format strings, and %asmtl%F with a file name that starts with temp loses the name's beginning (all refuted). How the statistics are computed is not part of it."
  },
  {
   "property": "C64",
   "status": "partial",
   "theorems": [
    "C64_restored_partial",
    "C64_push_partial",
    "C64_assembly_partial",
    "C64_valid",
    "C64_fields_lost_refuted",
    "C64_stats_lost_refuted",
    "C64_specs_lost_refuted",
    "C64_push_declares_refuted",
    "C64_assembly_lost_refuted",
    "C64_tables_cleared_partial",
    "C64_stats_cleared",
    "C64_enums_stay_refuted"
   ],
   "note": "Proved: push changes nothing of the live state but the program's tables; the program if its specifications are those of its sections, the states below, all statistics but three and all attributes but four come back (those with the program's declarations if they already held them), and the instructions too if no file is read in between; reading a file starts from empty tables of names but the enumerations'. Missing, because false (refuted): enumerations, the monitor's output and two paths, three statistics, desugared contracts, the instructions when a file was read, push leaving the live tables alone, and the enumerations of the file read before being cleared. Commands are arbitrary changes of the live attributes and program, entering declarations an arbitrary function; that copied tables share expressions with the live ones, and copied specifications none with each other, is not modelled."
  }
 ]
}