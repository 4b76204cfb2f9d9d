# Design of the formal model of R2U2 / C2PO

The subject is the source in `/repo` (read as text, never executed). The model
lives in `rocq/theories` (logical name `Verif`, Coq 8.16.1).

## 1. Layers

| Layer | Contents | Code modelled |
|---|---|---|
| Spec | MLTL / ptMLTL syntax and satisfaction, straight from `docs/Preliminaries/mltl.md` | documentation only |
| Compiler passes | expression trees and the tree passes | `compiler/c2po/{transform,rewrite,cpt,desugar,cse,scq}.py`, `egglog/rewrites/*.egg` |
| Assembler | instruction generation, byte packing, bounds | `compiler/c2po/assemble.py` |
| Loader | C loader for the bytes, queue memory layout | `monitors/c/src/internals/process_binary.c`, `instructions/*.c`, `mltl.c` 600-656 |
| Monitor | queues, operators, step function | `monitors/c/src/memory/shared_connection_queue.c`, `engines/{mltl,engines,booleanizer}.c`, Rust twins |
| Solvers / codegen | SMT encodings, word-level C code | `compiler/c2po/{sat,sabre}.py` |
| Front end | readers and writers of specification and trace files, type checker, maps, enums, console | `compiler/c2po/{parse_c2po,parse_mltl,type_check,types,map,trace,command,main}.py` |

Model files contain only definitions, each with a comment citing file and
lines. Proof files contain lemmas. `Prop_*.v` files contain only the property
theorems, each closed by `exact`, with `Print Assumptions` beneath and an
`Example` showing that the hypotheses are met by a concrete non-trivial case.

## 2. General modelling decisions

* **Traces** are infinite (`nat -> nat -> bool`: time, atom). The monitor runs
  on-line, so no trace end is visible to it; the finite-trace clauses `|pi| <= i+lb`
  only matter for the satisfiability encodings, where finite traces are modelled
  explicitly.
* **Expression graphs** are modelled as trees for passes whose effect on a node
  depends only on that node's subtree (the in-place `replace` of a shared node
  changes all its parents alike). Sharing is modelled explicitly where it
  matters: traversal (C15), CSE (C06), assembly (C16), monitor programs (C23..).
* **A post-order pass** that rewrites nodes in place is a bottom-up map: the
  iterator pushes children before the node is yielded and never revisits a
  replacement.
* **Time and verdicts**: the queue/operator model uses `nat` time stamps paired
  with a truth bit. The packing into 32-bit words is modelled and proved separately (C21);
  the theorems about runs therefore speak about runs shorter than 2^31 - 1 minus the
  largest bound.
* **Exceptions** (Python `struct.error`, `KeyError`, a return code of failure) are
  explicit `None` / error constructors.
* **Floats**: only the control structure is modelled; no theorem depends on
  floating-point arithmetic.

## 3. Properties

For each property of `properties.jsonl`: the model files, what is proved about
them, and what is not. Theorem names are those of `MANIFEST.json`; every claim is
either `proved` (the statement as listed) or `partial` (false as listed, with a
refutation and the largest positive theorem found, or proved for a stated part).

### C01 Removing extended operators preserves meaning (proved)

* Model: `Transform.v` (transform.py, remove_extended_operators) on the trees of `Mltl.v`
* Theorems: `C01_remove_extended_equivalent`, `C01_remove_extended_shape`
* Tree model of the pass; equivalence on all traces and absence of extended operators.

### C02 Binarising and flattening n-ary operators preserves meaning (partial)

* Model: `Transform.v` and, for arithmetic n-ary operators, `ArithNary.v`
* Theorems: `C02_binary_equivalent`, `C02_binary_shape`, `C02_flatten_equivalent`, `C02_arith_binary_value`, `C02_arith_binary_shape`, `C02_arith_flatten_value`, `C02_flatten_arity_refuted`
* Equivalence and binary shape proved; the arity-four bound after flattening is refuted; float + and * not modelled.

### C03 Normal forms preserve meaning (partial)

* Model: `Transform.v`: to_bnf bottom-up, to_nnf as the pre-order pass behaves
* Theorems: `C03_bnf_equivalent`, `C03_bnf_shape_partial`, `C03_bnf_shape_refuted`, `C03_nnf_refuted`, `C03_nnf_equivalent_partial`, `C03_nnf_no_xor_partial`, `C03_nnf_shape_partial`, `C03_nnf_shape_refuted`
* BNF equivalence proved for all formulas; NNF refuted for negated xor and proved otherwise; normal-form shape refuted in general, proved on the fragment with rules.

### C04 Rewrite optimisation preserves meaning (partial)

* Model: `Rewrite.v`: every branch of rewrite.py on n-ary trees
* Theorems: `C04_rewrites_equivalent_partial`, `C04_rewrites_legal_partial`, `C04_rewrites_eq_refuted`, `C04_rewrites_nary_refuted`
* Refuted for `false == p` and for conjunctions/disjunctions with more than two operands; equivalence proved for every legal tree with binary and/or and equalities against true or non-constant operands.

### C05 Equality-saturation rule set is sound (proved)

* Model: `Egglog.v`: the 85 rules of the `.egg` files and any schedule of rule applications
* Theorems: `C05_rules_equivalent`, `C05_saturation_equivalent`
* All 85 rules transcribed from the .egg files; closure over every rule schedule; i64 overflow and the egglog engine itself are outside the model.

### C06 Common subexpression elimination shares only equal expressions (proved)

* Model: `Graph.v`: mutable shared graph, keys as printed; cse.py
* Theorems: `C06_cse`
* Mutable shared graph, string keys as printed by the code; FT and PT sets processed in turn.

### C07 Interval decomposition and temporal unrolling preserve meaning (proved)

* Model: `Decompose.v`: cpt.decompose_intervals and cpt.unroll_temporal_operators
* Theorems: `C07_decompose_equivalent`, `C07_decompose_shape`, `C07_decompose_legal`, `C07_unroll_equivalent`, `C07_unroll_shape`, `C07_unroll_defined`
* Tree model of both functions; result shape included; unrolling is refused exactly when a release occurs.

### C08 Propagation delays bound what a verdict depends on (partial)

* Model: `Mltl.v`/`Window.v`: wpd and bpd as Operator.__init__ computes them
* Theorems: `C08_future_window`, `C08_past_window_partial`, `C08_since_window_refuted`, `C08_once_window_refuted`, `C08_past_causal`, `C08_delay_after_expansion_refuted`
* Proved for all future-time formulas built directly; refuted for past-time operators and for delays kept across definition expansion.

### C09 Release removal and operand sorting preserve meaning (proved)

* Model: `Transform.v`: remove_release_operators and sort_operands_by_pd
* Theorems: `C09_release_equivalent`, `C09_release_shape`, `C09_sort_equivalent`, `C09_sort_shape`
* Tree model of both passes.

### C10 Whole optimisation pipeline preserves meaning (partial)

* Model: `Pipeline.v`: the order of passes in main.py
* Theorems: `C10_pipeline_equivalent_partial`, `C10_pipeline_shape`, `C10_pipeline_refuted`
* Inherits the restriction of C04; output shape proved for all inputs.

### C11 Set aggregation means what it says (partial)

* Model: `Sugar.v`: desugar.py 149-418 with cpt.rename, and bound-variable bookkeeping of postorder
* Theorems: `C11_set_aggregation_partial`, `C11_result_sound_partial`, `C11_shadowing_rejected`, `C11_member_index_refuted`, `C11_input_name_refuted`, `C11_definition_name_refuted`, `C11_singleton_refuted`
* Desugaring (struct accesses, array accesses, unrolling of the five aggregations with substitution, struct accesses, array comparison) succeeds and preserves the value at every time, for any leaves and operators, nested aggregations and counting with 32-bit sums included. Missing: sets that contain aggregations are covered only for results that exist; array members of bound variables are compiled wrongly (refuted), bound variables named like inputs or definitions are captured (refuted), one-element sets give a conjunction the monitor never reports (refuted). Sharing of nodes is not represented.

### C12 Contracts are expanded into their three formulas (proved)

* Model: `Contracts.v` together with the chain of C39
* Theorems: `C12_expanded_in_place`, `C12_one_status`, `C12_lines_true`, `C12_end_to_end`
* Contracts anywhere in any program; statuses are exclusive and exhaustive; printed lines are true, for reports in general and through the whole chain of C39 for future-time programs. Reporting every contract is C42.

### C13 Array and struct accesses resolve to the selected component (partial)

* Model: `Sugar.v`
* Theorems: `C13_arrays_structs_partial`, `C13_index_range`, `C13_slice_range_refuted`, `C13_longer_array`, `C13_nested_access_refuted`, `C13_unequal_lengths_refuted`, `C13_inequality_refuted`, `C13_index_check_refuted`
* Element, slice and member accesses and comparisons of arrays: desugaring succeeds, leaves none of them and keeps the value at every time, where indexed arrays are written out once struct accesses are followed. Missing: alternating member and element accesses (refuted), comparison of arrays of different length and != (refuted), negative and one-past-the-end indices in the type checker (refuted).

### C14 Macro expansion is substitution (partial)

* Model: `Definitions.v`: desugar.expand_definitions; `Scope.v`
* Theorems: `C14_expand_meaning`, `C14_meaning_exists`, `C14_no_names_left_partial`, `C14_macro_semantics_partial`, `C14_alias_refuted`
* Refuted for a definition whose body is a bare name; otherwise proved for definition chains of any length and formula references.

### C15 Traversal visits each node once, children first (proved)

* Model: `Graph.v`: the generator of cpt.postorder as a stack machine
* Theorems: `C15_postorder`
* Stack machine of the generator on arbitrary acyclic graphs with sharing.

### C16 Assembled programs are well-formed (partial)

* Model: `Assembly.v`: gen_assembly and its helpers on shared graphs
* Theorems: `C16_assembly_well_formed`, `C16_shared_node_refuted`
* The assembler emits a well-formed program (every node computed once, operands refer to earlier instructions, one queue per instruction) for every graph whose owning nodes are not shared between the future-time and past-time sections; refuted with a witness when they are shared.

### C17 Binary encoding round-trips through the monitor's loader (partial)

* Model: `Binary.v`: pack_* of assemble.py and the C loader, byte lists; `RustBooleanizer.v`: the Rust loader
* Theorems: `C17_packs_iff_fits`, `C17_round_trip_partial`, `C17_temporal_round_trip`, `C17_float_constant_value`, `C17_round_trip_refuted`, `C17_rust_round_trip`
* C monitor: refuted for float constants with bit 31 of the double set (0.1); proved for all other instruction lists of any length, header and aux included. The Rust loader reads back all constants that fit (C17_rust_round_trip).

### C18 Every well-typed integer constant can be assembled (partial)

* Model: `Binary.v` and the constant check of the type checker
* Theorems: `C18_accepted`, `C18_constant_loaded_partial`, `C18_negative_refuted`, `C18_unsigned_refuted`
* Refuted for every negative constant; proved for the non-negative accepted ones.

### C19 Queue memory layout is disjoint and in bounds (proved)

* Model: `Layout.v`: the loader's pointer arithmetic over the queue arena; `RustLayout.v`: the control blocks of the Rust loader
* Theorems: `C19_queue_memory`, `C19_rust_queue_memory`
* Also for the Rust monitor, whose queues lie in a vector without parameter blocks. Queues loaded from an assembled program are disjoint, of the requested size and inside the generated bounds.

### C20 Generated bounds are sufficient (partial)

* Model: `Bounds.v`: compute_bounds
* Theorems: `C20_instruction_bound`, `C20_booleanizer_atomics`, `C20_generated_signals`, `C20_atomics_partial`, `C20_atomics_refuted`, `C20_signals_refuted`, `C20_outputs_refuted`
* Generated bounds are sufficient for instructions, queue slots, booleanizer atomics and generated signal maps; refuted for atomics without the booleanizer, signals with a trace header, and output verdicts.

### C21 Verdict/timestamp packing is lossless (proved)

* Model: `Verdict.v`: 32-bit words as N with explicit masks
* Theorems: `C21_truth_and_time_recovered`, `C21_word_is_its_parts`, `C21_set_keeps_time`, `C21_infinity`
* 32-bit words as N; also shows which verdict coincides with the reserved infinity word.

### C22 Connection queues deliver every verdict in order (proved)

* Model: `Verdict.v`, `Queueing.v`: word-level ring buffer with any number of readers
* Theorems: `C22_queue_delivers`
* Word-level queue, any number of consumers, any interleaving; capacity condition shown to be needed by an example.

### C23 Future-time verdicts are sound (proved)

* Model: `Scq.v`, `Engine.v`, `Monitoring.v`: full step of the temporal engine of both monitors; `FrameProofs.v`: an instruction only changes its own block, so the proof is about any operand-closed part of a program
* Theorems: `C23_reports_sound`, `C23_reports_in_order`, `C23_section_sound`, `C23_section_in_order`
* All programs of the operators the compiler emits, any sharing, neutral constants, queues with reach+2 slots; times as nat (packing is C21, word-level queues C22); also for the future-time section of a program whose other instructions are arbitrary.

### C24 Future-time verdicts are on time (proved)

* Model: as C23
* Theorems: `C24_reports_timely`, `C24_section_timely`, `C24_delay_is_wpd`
* Same programs as C23; the delay is the compiler's wpd; also for the future-time section of any program.

### C25 A monitor step always terminates (partial)

* Model: as C23 and C27, the pass loop with fuel; `MixedProofs.v`: programs with both sections
* Theorems: `C25_steps_end`, `C25_past_steps_end`, `C25_sections_end`, `C25_fuel_irrelevant`, `C25_absorbing_constant_refuted`, `C25_past_neutral_constant_refuted`
* Refuted: any program with an absorbing constant operand never finishes a step, nor does true && O[1,2] p; proved for future-time programs without absorbing constants and for once/historically programs without constants next to boolean connectives (both monitors); also when one program holds both kinds of sections.

### C26 Queue sizes computed by the compiler are sufficient (partial)

* Model: `ScqSize.v`: scq.py on programs, with `Engine.v`; `TightSize.v` states how far apart a queue's writer and readers may be, `TightQueue.v` and `TightProofs.v` run the sized monitor in lockstep with one whose queues never fill, `SizeProofs.v` compares the bound with the computed sizes; `PastSize.v` and `PastTight.v` do the same for once and historically, `SectionTight.v` for programs with both
* Theorems: `C26_computed_sizes_refuted`, `C26_conjunction_refuted`, `C26_enough_sizes_sufficient`, `C26_default_sizes_sufficient`, `C26_computed_size_least`, `C26_scq_constant_sufficient`, `C26_past_scq_constant_sufficient`, `C26_past_computed_sizes_refuted`, `C26_past_enough_sizes_sufficient`, `C26_past_default_sizes_sufficient`, `C26_sections_constant_sufficient`, `C26_sections_enough_sizes_sufficient`, `C26_sections_default_sizes_sufficient`, `C39_default_sizes_end_to_end`, `C39_sections_default_sizes_end_to_end`
* Refuted for the default sizes by two programs, on both monitors. Proved, for either monitor: a per-node inequality on sizes that is enough for every future-time program; that the default sizes meet it for the programs called modest (until and release only as F and G, and operands that may write several verdicts in one step do not lag behind their siblings); that any added constant at least every reach meets it; that the computed size is the least that covers the siblings. For once and historically, and for programs with both sections, a constant above every lead or delay is enough; the default sizes are enough, for such programs too, when the future-time part is modest and no past-time operator is inside another, and are refuted for a nested past-time formula.

### C27 Past-time verdicts are sound (partial)

* Model: `Engine.v`: since and trigger; `PastMonitor.v` states which programs are once/historically programs and how far ahead of the trace (`lead`) a formula can be decided; `PastNode.v`, `PastProofs.v`: invariant of every queue and of the edge/previous-output words
* Theorems: `C27_once_historically_sound`, `C27_once_historically_in_order`, `C27_once_historically_timely`, `C27_section_sound`, `C27_section_timely`, `C27_since_refuted`, `C27_trigger_refuted`
* Proved for once and historically, nested and under boolean connectives, in both monitors: sound, in order and without delay; refuted for since and trigger on atoms; also for a section of a program whose other instructions are arbitrary.

### C28 Atomic expressions are evaluated as written (partial)

* Model: `Booleanizer.v` (booleanizer.c, loader, lib.c), `Assembly.v` (gen_bz, gen_assembly), `Binary.v`; `RustBooleanizer.v` (booleanizer.rs, process_binary.rs, lib.rs)
* Theorems: `C28_atomics_evaluated`, `C28_values_unique`, `C28_shared_definition_refuted`, `C28_rust_atomics`, `C28_rust_values_unique`, `C28_rust_power_refuted`
* The same for the Rust loader and booleanizer, whose integer arithmetic saturates (refuted for overflowing powers of odd negative numbers). From the program graph through assembler, binary and C loader to the atomics after every step below 2^31, any expression depth and sharing, all integer and float operators (float operations abstract), signals, time and prev. Constants must be ones the binary format handles (C17, C18), numeric nodes not shared between the future-time and past-time sections (refuted otherwise), no prev directly below a prev (C29). Expressions must have a value: where C leaves the result undefined nothing is claimed.

### C29 prev yields the value of the previous step (partial)

* Model: as C28
* Theorems: `C29_prev_shifts`, `C28_atomics_evaluated`, `C29_nested_prev_refuted`
* Proved for every expression in which no prev is directly the operand of another prev; refuted for directly nested prev, which definitions make possible.

### C30 C and Rust monitors agree (partial)

* Model: `RustEngine.v`: engines/mltl.rs, engines/mod.rs, memory/scq.rs, next to `Engine.v`; `RustBooleanizer.v` next to `Booleanizer.v`; `Ieee.v` instantiates the float operations in counterexamples
* Theorems: `C30_rust_finishes`, `C30_no_contradiction`, `C30_same_verdicts`, `C30_rust_sound`, `C30_operators_agree`, `C30_same_time_refuted`, `C30_booleanizers_agree`, `C30_overflow_refuted`, `C30_float_comparison_refuted`, `C30_negative_exponent_refuted`, `C30_float_constant_refuted`, `C30_same_program`, `C30_sections_finish`, `C30_sections_no_contradiction`, `C30_sections_same_verdicts`, `C30_sections_enough_finish`, `C30_sections_enough_no_contradiction`, `C30_sections_enough_same_verdicts`
* Both loaders make the same program (instructions, queue lengths, bounds) of any assembled binary, future-time and past-time. Numeric expressions: both booleanizers and loaders hand the same atomics to the temporal engine, from any binary, as long as integer operations have exact results and float comparisons do not depend on the tolerance; refuted without that. The Rust queues, operators and step loop are modelled from their own source, with panics on unsigned underflow as a separate outcome. For future-time programs whose queues are just long enough (the sizes of C26, which the compiler computes), both monitors finish, give the same verdict for each time, in increasing order, both by the same deadline. The literal claim of identical report sequences is refuted: the C queue does not compact after a first (false,0), so C may report later and split reports otherwise than Rust. Programs with a past-time section over once and historically: the same (C30_sections theorems; with queues just long enough and no nested past-time operator, the C30_sections_enough theorems); since and trigger in general: instruction-level agreement (C30_operators_agree).

### C31 Reloading a specification starts from a clean state (partial)

* Model: `Reload.v` (both monitors), `Booleanizer.v`
* Theorems: `C31_booleanizer_clean`, `C31_c_reload_refuted`, `C31_c_cleared`, `C31_c_unused_partial`, `C31_rust_reload_refuted`, `C31_rust_reload_partial`
* Proved for everything computed from the signals: atomics after a reload equal those of a new monitor whatever the old buffers hold. Refuted for the temporal engines: the C resets (soft and hard) keep read/write pointers and next_time of the control blocks, so a reloaded monitor reports wrong verdicts; the Rust reset zeroes the wrong counter, so the old instructions stay in front of the new ones. The C temporal part is modelled for reloads that keep the queue layout. Positive: zeroed control blocks plus a hard reset give the fresh state from every state; Rust reload is clean if there were no temporal instructions.

### C32 Bit-vector satisfiability encoding is exact (proved)

* Model: `Smt.v`: value of the emitted bit-vector terms
* Theorems: `C32_supported`, `C32_exact`, `C32_equivalence`, `C32_strict`, `C32_strict_complete`
* The emitted bit-vector terms (sat.py 171-406) with SMT-LIB's meaning of the operators, over formulas on Boolean signals. Non-strict: satisfiable exactly when some trace satisfies the formula at time 0, for every legal formula for which a query is produced; also when the query asks for two formulas to differ. Strict: satisfiable exactly when some non-empty trace, cut off at its end, satisfies the formula. The solver itself and the concrete text of the query are not modelled.

### C33 Uninterpreted-function satisfiability encodings are exact (partial)

* Model: `Smt.v`: truth of the emitted terms over uninterpreted functions
* Theorems: `C33_qf_supported`, `C33_uflia_supported`, `C33_uflia_exact_partial`, `C33_uflia_equivalence_partial`, `C33_uflia_strict_partial`, `C33_uflia_strict_complete`, `C33_qf_short_partial`, `C33_qf_strict`, `C33_qf_strict_complete`, `C33_qf_unsat_refuted`, `C33_qf_sat_refuted`, `C33_uflia_unsat_refuted`, `C33_uflia_sat_refuted`, `C33_uflia_comparison_refuted`, `C33_uflia_strict_refuted`, `C33_strict_disagree_refuted`
* The claim is false as stated. UFLIA: exact for conjunctions and disjunctions of two and comparisons of temporal-free formulas; wrong both ways beyond that because the computation length looks at two operands only (the conjunction of three specifications in check_sat). QF_UFLIA: the length passed is wpd instead of wpd+1, so "p" is reported unsatisfiable and "G[1,1] false" satisfiable. Strict queries: characterised (finite traces of the documentation for UFLIA, except F[0,0] and F[1,1]; truncated traces for QF_UFLIA and QF_BV); the theories disagree. Arithmetic is C59, symbolic bounds and mission time are C58.

### C34 Generated word-level C code computes the temporal operators (partial)

* Model: `Sabre.v`: the generated program, rings, word delays and doubling loops
* Theorems: `C34_monitor_partial`, `C34_short_intervals`, `C34_constant_refuted`, `C34_equivalence_refuted`, `C34_until_refuted`, `C34_wide_interval_refuted`
* Whole generated program (rings, word delays, in-place buffers, clearing) for all formulas over atoms, false, !, &&, ||, ->, xor, F, G and U whose intervals leave a remainder below one word or of whole words (always so up to three words), and U whose loops stop in time. Wrong in the code, hence refuted: constant true, <->, U with a lower bound moving it past a power of two, longer remainders (undefined shift). raw_bytes input and printf formatting are not modelled.

### C35 Accepted programs are time-consistent and well-typed (partial)

* Model: `TypeCheck.v`: type_check.py; specification `TypeSpec.v`: an evaluator that can go wrong
* Theorems: `C35_sound_partial`, `C35_times`, `C35_booleanizer`, `C35_gaps_refuted`, `C35_mixed_time_refuted`, `C35_definition_place_refuted`, `C35_duplicate_refuted`, `C35_numbers_refuted`
* Type_check.py modelled function by function on what parse_c2po.py builds. Proved: in every accepted program whose names are distinct, every definition and specification evaluates (in an independent evaluator over arbitrary inputs of the declared types and arbitrary arithmetic) without going wrong, except in seven listed ways, and specifications are Boolean; operators written in a specification are those of its section; without the Booleanizer no accepted program contains an operation needing it. Refuted (full property): arithmetic on Booleans, ordering of Booleans, index equal to the length, wrong number of struct members, bound variables outside their scope, modulo 0, enum-valued prev from a definition; mixed time through definitions; duplicate names across sections; numbers without the Booleanizer.

### C36 Enum members are distinct constants (partial)

* Model: `Enums.v`
* Theorems: `C36_refuted`, `C36_distinct_iff`, `C36_automatic_distinct`, `C36_every_member`
* Automatic numbering can repeat an explicit value ({A:1, B, C}); proved: members are distinct exactly when no later automatic value hits an explicit one, in particular for all-automatic enumerations, and every member gets a value.

### C37 Signal map files map every listed signal (partial)

* Model: `MapFile.v`: map.py on ASCII character lists
* Theorems: `C37_reads_partial`, `C37_range_refuted`, `C37_index_refuted`, `C37_assigned_or_reported`, `C37_generated_partial`, `C37_generated_refuted`, `C37_accepted_lines`
* Reading is exact for plain symbols, elements below 100 and ranges that start below 10; ranges from 10 and indices of three digits are misread (refuted with witnesses). Generated maps read back under the same bound. ASCII files.

### C38 Command guards and scripts stop on failure (partial)

* Model: `Commands.v`: guards, commands, composites, the script console
* Theorems: `C38_composite_in_order`, `C38_guards_hold`, `C38_guard_blocks`, `C38_assembler_guards`, `C38_transitive_guards_refuted`, `C38_return_code`, `C38_assembler_input`, `C38_command_outcome`, `C38_push_pop`
* Commands run in order and stop at the first failure; no command runs with a guard of its own or a direct prerequisite unmet, so whatever is assembled meets the spelled-out conditions; a command's outcome and a push with its pop are settled. The copy made by push is any function here, and push leaves the live state alone; what the copy loses and which live tables push changes is C64. Prerequisites of prerequisites are not checked (refuted).

### C39 End to end: compiled specification is monitored correctly (proved)

* Model: composition of `Pipeline.v`, `Graph.v`, `Assembly.v`, `Binary.v`, `Layout.v`, `Booleanizer.v`, `Engine.v`; `RustLayout.v`, `RustBooleanizer.v`, `RustEngine.v` for Rust; `SectionSpec.v` states what two sections must report; `DefaultSpec.v` the formulas served without a queue constant
* Theorems: `C39_end_to_end`, `C39_constant_free`, `C39_signals_to_reports`, `C39_csv_to_reports`, `C39_rust_end_to_end`, `C39_rust_signals_to_reports`, `C39_sections_end_to_end`, `C39_rust_sections_end_to_end`, `C39_sections_signals_to_reports`, `C39_rust_sections_signals_to_reports`, `C39_past_constant_free`, `C39_default_sizes_end_to_end`, `C39_default_sizes_refuted`, `C39_sections_default_sizes_end_to_end`, `C39_rust_sections_default_sizes_end_to_end`
* Proved for the C monitor and for the Rust monitor, which in addition does not panic. C39_signals_to_reports adds the booleanizer: from signal values to reports; C39_csv_to_reports starts from the text of a trace file (C46). The C39_sections theorems cover programs with both sections, the past-time one over once and historically (since and trigger proper are refuted under C27). Supported shape: binary connectives in the source, no constant that decides an operator (constant-free formulas qualify, C39_constant_free and C39_past_constant_free), no node shared between the two sections (C28_shared_definition_refuted), queue constant above every delay and lead. Every graph that represents the formulas (shared or not) is covered; text parsing is C53. C39_default_sizes_end_to_end needs no queue constant: C monitor, future-time formulas whose operands keep up with each other (DefaultSpec.v: until and release as F and G, an operand that can deliver several verdicts at once no slower than its sibling), node delays those of the formulas; the C39_sections_default theorems say the same of programs with both sections, for both monitors, if no past-time operator is inside another; for other formulas the default sizes give wrong reports end to end (C39_default_sizes_refuted, the case C26 refutes), which is why the statement asks for the constant. The excluded shapes are those refuted under C04, C25 and C26.

### C40 WCET estimate is the sum over executed instructions (partial)

* Model: `Wcet.v`: wcet.py
* Theorems: `C40_sum_exact`, `C40_sum_bounds`, `C40_rounding_refuted`, `C40_monotone`, `C40_missing_operator`
* The estimate is the sum of truncated latencies: exact when the clock divides them, below the true sum otherwise (refuted with the default table), 0 when an operator is missing from the table.

### C41 Reports carry the label of their formula (partial)

* Model: `Contracts.v`: numbering of specifications, the names table
* Theorems: `C41_names_partial`, `C41_section_order_refuted`
* True when no past-time section precedes a future-time one; otherwise names are swapped (refuted).

### C42 The status of every contract is reported (partial)

* Model: `Contracts.v`: contract table, loader bound, printed lines
* Theorems: `C42_lines_complete`, `C42_generated_bound_refuted`, `C42_same_label_refuted`
* Complete when the contract table has an entry to spare and labels are distinct; with the generated bound the C loader drops the last contract, and a label reused in another section hides the first contract (both refuted).

### C43 Formulas written in the MLTL standard format are read back unchanged (partial)

* Model: MltlText.v has the writer (write_expr, write_formulas, write_mltl: to_mltl_std and the write_mltl command, texts as lists of characters) and the reader (lexer, shift-reduce parser with the precedence table, section kind). MltlTextSpec.v says which formulas belong to the standard. The proof gives for every formula the tokens its text spells and a derivation of an equivalent formula, and then uses the reader's correctness (C44).
* Theorems: `C43_round_trip_partial`, `C43_xor_refuted`, `C43_mixed_refuted`, `C43_single_operand_refuted`
* Proved for every list of formulas of the standard that does not mix future and past operators. Missing, because false: formulas with xor, specifications with both kinds of operators and conjunctions of one operand are written but not accepted on reading (refuted with witnesses).

### C44 MLTL standard files are read by one grammar (partial)

* Model: MltlTextSpec.v states the grammar with explicit levels and which texts spell which tokens (blanks, tabs, comments between them); the reader of MltlText.v (lexer of sly with parse_mltl.py's rules; LALR parsing as an operator-precedence stack) is proved to accept exactly what the grammar derives. The operator-precedence stack stands for the generated LALR tables: for this grammar (expressions with declared precedences) the generator resolves each conflict by the table, which is what reduce does; the tables themselves are not computed in the model.
* Theorems: `C44_grammar_partial`, `C44_unambiguous`, `C44_illegal_characters_refuted`, `C44_trailing_comment_refuted`, `C44_documented_precedence_refuted`
* Proved for every text that spells tokens, with blanks, tabs and comments: accepted exactly when the grammar derives it, with one reading. Missing, because false: texts with characters outside the standard are accepted with those characters dropped. A comment behind a formula hides the end of its line, and the reference manual's precedences differ from the reader's (both refuted).

### C45 The Rust monitor reports arithmetic overflow exactly when it happens (partial)

* Model: `RustBooleanizer.v`: engines/booleanizer.rs with the overflow_error flag, loaded from the binary of `Assembly.v` and `Binary.v`
* Theorems: `C45_overflow_reports_partial`, `C45_missed_overflow_refuted`, `C45_panic_refuted`
* Proved: no report without an overflow in the same step; with one arithmetic instruction, a report exactly when it overflows. Missing, because false: with several arithmetic instructions each overwrites the report, so only the last one counts; and -2^31 % -1 panics instead of being reported.

### C46 Trace files: every signal gets the values of its column (partial)

* Model: `CsvTrace.v`: csv_trace.c with fgets, strtok and sscanf, `r2u2_load_string_signal`, the main loop and `parse_trace_file`; `CsvSpec.v`: tables and their texts
* Theorems: `C46_reader_partial`, `C46_columns_partial`, `C46_numbers_partial`, `C46_short_rows`, `C46_time_stamps`, `C46_no_header`, `C46_empty_cell_refuted`, `C46_documented_example_refuted`, `C46_long_line_refuted`, `C46_whole_float_refuted`, `C46_repeated_name_refuted`
* Proved for every table whose cells are not empty, whose rows do not start with # or @ and whose lines fit the buffer: one step per row, each signal reads its column (Booleans; integers and numbers with a decimal point for the booleanizer); cells missing at the end of a row leave signals as they were; time stamps set the time of a row. Missing, because false: an empty cell shifts the rest of the row, blanks before a 0 make it true (also in the documented example), lines longer than BUFSIZ are split, whole numbers in real columns are stored as integers, a repeated name is an error.

### C47 Generated traces feed each signal its own values (partial)

* Model: `CsvTrace.v`: `generate_trace` with arbitrary cells in place of random ones
* Theorems: `C47_generated_partial`, `C47_gap_refuted`
* Proved for every numbering without gaps, with arbitrary values in place of the random ones. Missing, because false: when the numbers have gaps (a map file that lists more signals than the program declares) the columns do not match the numbers.

### C48 The C and Rust command-line monitors read a trace file alike (partial)

* Model: `CsvTrace.v`: the Rust command-line monitor's record loop and `load_string_signal`; the csv crate by its documented behaviour
* Theorems: `C48_readers_agree_partial`, `C48_same_numbers`, `C48_zeros_refuted`, `C48_comment_refuted`
* Proved for every table of 32-bit integers in plain decimal form, and for the numbers of single cells with the booleanizer. Missing, because false: a 0 with blanks, a carriage return or a leading zero is true in C and false in Rust; a later comment line is a row in C. The csv crate is trusted to behave as documented.

### C49 Specification files mean what the grammar says (proved)

* Model: `C2poText.v`: the parser of parse_c2po.py as a recursive-descent reader for sections and declarations and an operator-precedence stack for expressions (levels and groupings of the precedence table, lines 121-138), with the checks its actions make (intervals, mission time, labels, enum members). `C2poSpec.v` states the grammar separately, with explicit levels. The two are proved equivalent. The stack stands for the LALR tables that sly generates: for expressions with declared precedences the generator settles each conflict by that table; the tables themselves are not computed in the model.
* Theorems: `C49_expressions`, `C49_files`, `C49_one_reading`, `C49_one_expression`
* Reader and grammar agree on every token sequence, both ways; the grammar gives one reading. The precedence table is that of parse_c2po.py (the manual gives none for C2PO files).

### C50 Names, numbers, blanks and comments in specification files (partial)

* Model: `C2poText.v`: the lexer (sly tries the patterns in order of definition, keywords are remapped identifiers, illegal characters are reported and skipped); `C2poSpec.v`: which texts spell which tokens, with the longest-match side conditions, and the names language.md allows. Texts are ASCII.
* Theorems: `C50_spelling_partial`, `C50_layout`, `C50_names_sound`, `C50_names_refuted`, `C50_prev_names_refuted`, `C50_illegal_refuted`, `C50_minus_refuted`
* Proved: every text that spells tokens, with any blanks, line breaks and comments, is cut into these tokens, and whatever name or decimal the lexer yields is one. Missing, because false: names beginning with prev and the names T and TAU are cut or taken as operators, illegal characters are skipped and the file accepted, and x-1 is two tokens.

### C51 A program written out in C2PO form reads back as the same program (partial)

* Model: `C2poText.v`: `Program.__str__` with the sections' `__str__` and to_infix_str; the program type holds what the reader's actions build. Python's repr of floats is a parameter; `floats_settle` says that writing and reading a float's text once more changes nothing.
* Theorems: `C51_written_partial`, `C51_read_again_partial`, `C51_function_refuted`, `C51_count_refuted`, `C51_enum_refuted`, `C51_call_refuted`, `C51_float_refuted`, `C51_label_refuted`
* Proved for every program without the shapes listed: sections, types, declarations, definitions, contracts, all other expressions, any size. Missing, because false: sqrt and abs of plain operands, counting aggregations, enums, calls without arguments, floats written with an exponent, and user labels of the form __x__ (refuted with witnesses).

### C52 Specification ids follow the order of the file (partial)

* Model: Numbering is part of the reader of `C2poText.v`; `numbers` of `C2poSpec.v` lists the ids a program occupies, three for a contract.
* Theorems: `C52_ids`, `C52_labels_refuted`
* Ids: proved for every accepted file. Missing, because false: the label made for a specification without one may be a label the user wrote.

### C53 From specification file and trace file to true reports (partial)

* Model: `Elaborate.v` joins `C2poText.v` (files), `CsvTrace.v` (headers and rows), `Definitions.v`, `Pipeline.v`, `Graph.v`, `Assembly.v`, `Binary.v`, `Engine.v`/`RustEngine.v`; `ElaborateSpec.v` says what a file means; the two kinds of sections become two sets of objects, monitored together (`EndToEndSections.v`, `SectionReports.v`)
* Theorems: `C53_text_to_reports_partial`, `C53_rust_text_to_reports_partial`
* Proved for the C and the Rust monitor for all files over Boolean inputs, with definitions, labels used as formulas, and future-time and past-time (once, historically) sections in any order, and for all traces of non-empty cells whose rows have a cell per column. The queue constant is above the delays and leads and the memory sizes fit (C19, C26). Excluded because refuted: names used by specifications of both kinds (C16), since and triggered (C27), definitions whose operators are not of the kind of the section before them (C35), Boolean constants in formulas (C25), definitions that only rename a definition (C14), names declared twice. Missing: contracts, structs, enums, arithmetic (C12, C13, C28, C36 separately).

### C54 Equality saturation replaces a formula by an equivalent one (partial)

* Model: `Saturate.v`: the `let` commands written for the nodes of a formula in postorder (`eqsat.py` 126-184), the lexer, the parser and the replacement of names by atomics of `parse_egglog_output.py` 7-205, and the part of the type checker that can refuse a result. `SaturateSpec.v` says independently what formula a sequence of nodes stands for, what egglog binds for a command, how a term is printed (any blanks) and what the grammar of the output is. egglog itself is trusted to print some term of the class of the root, as described by the rule set of C05 (`Egglog.v`).
* Theorems: `C54_encoding_sound`, `C54_encoding_total`, `C54_reader_grammar`, `C54_eqsat_equivalent_partial`, `C54_bare_atomic`, `C54_bare_atomic_refuted`, `C54_past_section`, `C54_past_section_refuted`
* The formula bound by the commands is the formula (for any sharing), the reader accepts exactly its grammar, and any term of the class printed in any layout is read back as an equivalent formula over the same atomics with legal intervals. False when the extracted term is one atomic (KeyError or another input) and for timed results of programs ending in a PTSPEC section (refused): both refuted, and described by theorems. egglog is trusted to extract from the class; what replacing does to the parents of shared atomics is not part of this property.

### C55 The compiler knows every user of an expression (partial)

* Model: `Parents.v`: a graph together with the recorded parents; the constructor of `Expression` (`cpt.py` 47-56), `replace` (87-104), `get_siblings`, `has_only_tl_parents`, CSE, queue sizes and code generation written over the record (in `Graph.v` and `Assembly.v` they use the true users); reading back the result of equality saturation, greedy (`parse_egglog_output.py` 173-197) and by integer programming (`egraph.py` 577-658), which both forget parents of atomics. `ParentsSpec.v` says when a record is complete and when it is exact, independently of the passes, and what sequences of edits there are. The expression returned by egglog or Gurobi is an arbitrary tree.
* Theorems: `C55_edits_complete`, `C55_cse_complete`, `C55_sizes`, `C55_recorded_end_to_end`, `C55_greedy_complete_partial`, `C55_ilp_complete_partial`, `C55_greedy_shared_input_refuted`, `C55_ilp_repeated_input_refuted`
* Every sequence of constructions and replacements keeps the record complete; CSE by the record equals CSE by true users and keeps the record complete and exact; queue sizes from a complete record are at least, from an exact one equal to, those of the true siblings, and the whole back end over the record gives the reports of C39. Equality saturation keeps the record complete when no other part of the program uses the atomics of the formula (greedy), and when also each atomic occurs once in the formula (integer programming). Missing, because false: with shared inputs users are lost and a formula is reported wrongly (both refuted down to the report).

### C56 Extraction by integer programming gives the least equivalent formula (partial)

* Model: `Ilp.v` (egraph.py: the e-graph, the constraints and objective of `build_gurobi_model_`, `build_repr_map_`, `build_expr_`), `EgraphJson.v` (egraph.py: `ENode.from_json`, `EGraph.from_json`); specification in `IlpSpec.v` and `EgraphJsonSpec.v`: the terms a class holds in the e-graph and in the JSON document, the documents egglog writes, the allowed operators, the queue slots of a formula
* Theorems: `C56_ilp_equivalent`, `C56_reading`, `C56_document_equivalent`, `C56_solvable`, `C56_no_temporal_rules_refuted`, `C56_least_memory_refuted`
* Any solution of the constraints (not only an optimum) is turned, without an exception and by a recursion that ends even if classes are cyclic, into a formula equivalent to the specification, with legal intervals, no further atomics and, extended operators off, none of ->, G, F. Solutions exist exactly if the class of the formula holds a term over the allowed operators. Missing, because false: with temporal rules and extended operators off there may be no solution, and the optimum may need more queue memory than another term of the class (both refuted, on e-graphs proved to be the saturated ones). egglog is trusted to put only derivable terms in the class, Gurobi to return exact integers meeting the constraints. Reading the JSON document egglog writes is proved to give the e-graph the document describes, and the chain starts from it.

### C57 Naming a subformula does not change its verdicts under the default options (partial)

* Model: `Recorded.v`: the expressions with the delays that constructors record (cpt.py 42-43, 513-532, 770-855), through definition expansion, the rewrite rules and the removal of extended operators, down to the queue sizes (`compile_recorded` = C53's compiler with these delays); specification in `RecordedSpec.v`: which names a file mentions, formulas without temporal operators
* Theorems: `C57_default_options_partial`, `C57_rust_default_options_partial`, `C57_named_formula_refuted`, `C57_past_formula_refuted`
* Proved: with the delays the compiler itself records, and any --scq-constant from 0 on, the reports on files whose names stand for formulas without temporal operators (and whose compiled future-time formulas are modest, see C39, and past-time formulas not nested) are in order, true and timely, from the C monitor and (on tables of 32-bit integers) from the Rust monitor. Refuted for names of temporal formulas, in both monitors: the recorded delay of their users is too small and so are the queues. Refuted for past-time formulas with nested operators.

### C58 Equivalence checking with symbolic interval bounds answers for every value of the bounds (partial)

* Model: `SymSmt.v`: files as parse_equiv returns them, the emitted functions, assertions and computation length with bounds as integer constants, the loop of check_equiv; specification in `SymSmtSpec.v`: values of bound expressions, proper intervals, the MLTL formula for given values
* Theorems: `C58_pair_partial`, `C58_mission_partial`, `C58_strict_partial`, `C58_file_partial`, `C58_verdict`, `C58_negative_refuted`, `C58_mission_refuted`, `C58_backwards_refuted`, `C58_unencoded_refuted`
* Proved for files without mission time whose lower bounds cannot come out negative: the query for two formulas is unsatisfiable exactly if they are equivalent for all values of the bounds, and the word printed for the file is right if the solver is. With a mission time, and with --strict, the formulas are compared on finite traces (of M + 1 steps, of every length) in the documented reading, provided no eventually is written with [0,0] or [1,1]. Refuted otherwise: a lower bound such as b0-1 is let negative; with a mission time what happens after it is disregarded (test fret_43); an interval that ends before it starts is not rejected and makes its formula equivalent to any other; a pair that cannot be encoded does not keep equiv from being printed. The text of .equiv files is C60. Not modelled: division in bounds.

### C59 Satisfiability answers about integer inputs hold for the monitor (partial)

* Model: `SmtArith.v`: terms for signals, constants, arithmetic and comparisons on top of the temporal part of `Smt.v`, SMT-LIB's div and mod (divisor 0 left to the solver); specification in `SmtArithSpec.v`: exact integer values, truth of atomic formulas over exact integers and over the values C28 proves the monitor to compute, inputs on which nothing overflows
* Theorems: `C59_encoded`, `C59_exact_partial`, `C59_monitor`, `C59_unsat_partial`, `C59_overflow_refuted`, `C59_rounding_refuted`, `C59_range_refuted`, `C59_zero_refuted`
* Proved for specifications whose divisors are constants other than 0 and whose logical part is one C33 proves the query right for: the query is satisfiable exactly if exact integers satisfy the formula; on inputs that keep every intermediate value within 32 bits and divide no negative number the monitor's atomic formulas are those of exact integers, so what is reported unsatisfiable never holds, at no time. Refuted otherwise: x + 1 < x is reported unsatisfiable but true in the monitor for the largest x; x / 2 + 1 == 0 && x + 1 == 0 is reported satisfiable but never true, as the monitor rounds towards 0; x > 2147483647 and x / 0 == 5 are reported satisfiable but never true.

### C60 Equivalence files are read as written (partial)

* Model: `EquivText.v`: the lexer of parse_equiv.py (order of the rules, skipped characters) and its LALR parser as a stack of waiting rules with the precedence table; specification in `EquivTextSpec.v`: the grammar with precedences as levels, texts that spell tokens, the text of a file of C58, the precedences of C
* Theorems: `C60_grammar_partial`, `C60_unambiguous`, `C60_every_file`, `C60_one_file`, `C60_verdict_partial`, `C60_precedence_refuted`, `C60_illegal_characters_refuted`, `C60_trailing_comment_refuted`, `C60_empty_line_refuted`
* Proved for every text that spells tokens, with blanks, tabs and comments: accepted exactly if the grammar derives it, with one reading; every file C58 speaks about has a text and a text stands for one file, so the word printed is about the formulas in the text (under C58's conditions). Missing, because false: + - * / have one precedence, so b0 + b1 * 2 is read as (b0 + b1) * 2; texts with other characters are accepted without them; a comment behind a formula and an empty line make a file unreadable (all refuted).

### C61 The satisfiability command is right about each specification and about the program (partial)

* Model: `SatCommand.v`: run_smt_solver's reading of the process (exit code, words on the output), to_smt's choice of the query (those of C32 and C33), the loop of check_sat over the specifications with its early returns, the query about the conjunction, messages and return code; specification in `SatCommandSpec.v`: one trace meets all formulas, a solver that is right when it says sat or unsat, a message that is right
* Theorems: `C61_right_words`, `C61_success`, `C61_silent`, `C61_warned`, `C61_every_line`, `C61_strict_unsat`, `C61_uflia_right_words_partial`, `C61_uflia_silent_partial`, `C61_uflia_program_refuted`, `C61_uflia_silent_refuted`, `C61_past_stops_refuted`
* Proved for bit-vector queries (not strict): every word printed or warned is right, about a specification and about the program, also if the command fails later; it succeeds exactly if all formulas are in the fragment of C32 and the solver answers; success without a warning means that one trace meets all formulas, and with a deciding solver a warning means that none does. For every theory a successful run with --print has one line per formula, in order, and one for the program; with --strict whatever is said to be unsat is, whatever the theory and the number of specifications. With uninterpreted functions proved for programs of up to two formulas over the operators of C33. Refuted otherwise: with uflia four specifications that exclude each other are shown as sat and draw no warning; a past-time specification ends the command for every theory, with nothing said about the program. The solver is trusted to be right when it says sat or unsat.

### C62 Written queries are found under their formulas' names (partial)

* Model: `SmtFiles.v`: write_smt_encoding with its set-up of the location (file removed, directory kept or made), the choice of one formula, the loop over the future-time specifications; the encoding is a parameter; specification in `SmtFilesSpec.v`: the text found for a formula
* Theorems: `C62_all_partial`, `C62_one`, `C62_others_kept`, `C62_past_refuted`, `C62_file_lost_refuted`
* Proved for every encoding and every previous content of the location: no exception; without a formula, success exactly if every future-time formula has a query, each of which is then found under its name; with a formula, success exactly if it names one with a query, which is then found; other files of a directory keep their contents. Names are assumed distinct, which the type checker enforces. Missing, because false: formulas of PTSPEC are not written, though the command succeeds; a command that fails has already removed an existing file (both refuted).

### C63 Statistics are printed as the format string says (partial)

* Model: `StatsText.v`: str.replace (leftmost, not overlapping), the table of placeholders in its order, the three escapes; specification in `StatsTextSpec.v`: format strings as lists of pieces, their spelling and what is to be printed
* Theorems: `C63_format_partial`, `C63_format_simple_partial`, `C63_percent_refuted`, `C63_backslash_refuted`, `C63_continued_refuted`
* Proved for values without percent sign and backslash: every placeholder and escape is replaced by what it stands for and the rest kept, provided no placeholder together with what is printed after it spells a longer one; only %asmtl can be continued so (to %asmtltemp), and without it there is no such condition. Missing, because false: file names with a percent sign or a backslash are themselves taken for format strings, and %asmtl%F with a file name that starts with temp loses the name's beginning (all refuted). How the statistics are computed is not part of it.

### C64 pop brings back the state of the matching push (partial)

* Model: `Snapshot.v`: programs as sections and specifications, the attributes of contexts and statistics, those copied, declared by a copy and cleared, the list object of instructions shared by copies; specification in `SnapshotSpec.v`: balanced sequences of actions, specifications as written
* Theorems: `C64_restored_partial`, `C64_push_partial`, `C64_assembly_partial`, `C64_valid`, `C64_fields_lost_refuted`, `C64_stats_lost_refuted`, `C64_specs_lost_refuted`, `C64_push_declares_refuted`, `C64_assembly_lost_refuted`, `C64_tables_cleared_partial`, `C64_stats_cleared`, `C64_enums_stay_refuted`
* Proved: push changes nothing of the live state but the program's tables; the program if its specifications are those of its sections, the states below, all statistics but three and all attributes but four come back (those with the program's declarations if they already held them), and the instructions too if no file is read in between; reading a file starts from empty tables of names but the enumerations'. Missing, because false (refuted): enumerations, the monitor's output and two paths, three statistics, desugared contracts, the instructions when a file was read, push leaving the live tables alone, and the enumerations of the file read before being cleared. Commands are arbitrary changes of the live attributes and program, entering declarations an arbitrary function; that copied tables share expressions with the live ones, and copied specifications none with each other, is not modelled.

## 4. Trusted base

* The Coq 8.16.1 kernel, including `vm_compute`. `Print Assumptions` answers
  "Closed under the global context" for every property theorem (section 6).
  The module parameters `Coq.ssr.ssrunder.*`, which the standard library loads with its
  tactics, are in the library context of some files; no theorem depends on them.
* The reading of the source recorded in the comments of the model files: every
  definition cites the file and lines it transcribes. Nothing was extracted or run.
* The specification files: `Mltl.v` (satisfaction, from `docs/Preliminaries/mltl.md`),
  `*Spec.v`, `Monitoring.v` (what a sound and timely report is), `EndToEnd.v`.

Modelled, in `/repo/compiler/c2po`:

| Code | Model |
|---|---|
| `transform.py`, `rewrite.py` | `Transform.v`, `ArithNary.v`, `Rewrite.v` |
| `egglog/rewrites/*.egg` | `Egglog.v` |
| `eqsat.py` 126-184 (encoding), `parse_egglog_output.py` | `Saturate.v`; `Parents.v` for the recorded parents |
| `egraph.py` 84-225, 248-301 (reading the JSON document) | `EgraphJson.v` |
| `egraph.py` 84-95, 303-324, 326-529, 548-658, 801-803 (the e-graph after reading it; constraints, objective, representatives, expression) | `Ilp.v` |
| `cpt.py` `Expression`: constructor, `replace`, `get_siblings`, `has_only_tl_parents`; `egraph.py` `build_expr_` | `Parents.v` |
| `cpt.py`: expressions, postorder, rename, unroll, decompose, delays, guards, Program | `Mltl.v`, `Graph.v`, `Decompose.v`, `Sugar.v`, `Commands.v`, `Contracts.v` |
| `desugar.py` | `Definitions.v`, `Scope.v`, `Enums.v`, `Contracts.v`, `Sugar.v` |
| `cse.py`, `scq.py`, `atomics.py` | `Graph.v`, `ScqSize.v`, `Assembly.v`, `Bounds.v` |
| `assemble.py` (generation, packing, bounds) | `Assembly.v`, `Binary.v`, `Bounds.v`, `Booleanizer.v` |
| `wcet.py`, `map.py`, `command.py`, `main.py` (console, script) | `Wcet.v`, `MapFile.v`, `Commands.v` |
| `sat.py` (three encoders, equivalence query), `sabre.py` | `Smt.v`, `Sabre.v` |
| `sat.py` 703-751 (arithmetic and comparisons in UFLIA queries) | `SmtArith.v` |
| `parse_equiv.py` 7-340 | `EquivText.v` |
| `sat.py` 14-24, 40-155 (reading the result), 1003-1027, 1134-1216 | `SatCommand.v` |
| `sat.py` 1029-1096 | `SmtFiles.v` |
| `stats.py` 3-39, 101-108 | `StatsText.v` |
| `main.py` 139-148, 196-202, `cpt.py` 1203-1338, 1425-1518, 1564-1607, 1773-1776, `stats.py` 121-155 | `Snapshot.v` |
| `sat.py` 612-1000 on symbolic intervals, 1260-1280, 1363-1425; what `parse_equiv.py` 137-310 returns | `SymSmt.v` |
| `type_check.py`, `types.py` | `TypeCheck.v` |
| `parse_mltl.py`, `cpt.py` 2187-2241 (to_mltl_std), `serialize.py` 58-74 | `MltlText.v` |
| `trace.py` | `CsvTrace.v` |
| `parse_c2po.py` (lexer, grammar, actions; numbering and enum members also in the files of C12, C36), `sly/lex.py` 363-424, `serialize.py` 4-11, `cpt.py` 1115-1305, 1419-1421, 1961-2087 (writing) | `C2poText.v`, `Contracts.v`, `Enums.v`, `TypeCheck.v` |

Modelled, in `/repo/monitors`:

| Code | Model |
|---|---|
| C: `shared_connection_queue.c`, verdict macros | `Scq.v`, `Verdict.v` |
| C: `engines/mltl.c`, `engines.c` | `Engine.v` |
| C: `engines/booleanizer.c`, `lib.c` (signals, step) | `Booleanizer.v` |
| C: `internals/process_binary.c`, `mltl.c` 600-656, `memory/monitor.c` | `Binary.v`, `Layout.v`, `Reload.v` |
| C: `engines/aux_info.c` and the name tables | `Contracts.v` |
| Rust: `engines/mltl.rs`, `engines/mod.rs`, `memory/scq.rs`, resets and loading of `memory/monitor.rs`, `lib.rs`, `process_binary.rs` | `RustEngine.v`, `Reload.v` |
| Rust: `engines/booleanizer.rs`, `instructions/booleanizer.rs`, `instructions/mltl.rs` (decoding), signal functions of `lib.rs` | `RustBooleanizer.v` |
| Rust: queue configuration (`instructions/mltl.rs`, `process_binary.rs`) | `RustLayout.v` |
| `main.py` 47-60, 257-345 (order of the steps, without booleanizer), `cpt.py` 1944-1960, 1326-1327 | `Elaborate.v` |
| `cpt.py` 42-43, 87-105, 513-532, 770-855 (recorded delays), `desugar.py` 4-23, `rewrite.py` 4-302, `transform.py` 381-481, `scq.py` 41-42 as far as they record delays | `Recorded.v` |
| C: `cli/csv_trace.c`, the loop of `cli/main.c`; Rust: the loop of `r2u2_cli/src/main.rs` (the csv crate by its documentation) | `CsvTrace.v` |

Not modelled: the LALR tables sly generates (their effect is stated by precedence);
the step from the parsed text to the expressions of the passes beyond Boolean inputs, definitions, future-time and past-time specifications (`Elaborate.v`); the rest of `serialize.py`; `eqsat.py` beyond the
rules, the encoding and the reading of the result (the egglog process, its costs); the SMT solver,
gurobi and other external processes; arithmetic in bit-vector and quantifier-free queries;
floating point (operations are arbitrary functions on 64-bit words); file and console
I/O; the GUI; the VHDL/FPGA back end; printf formatting.

## 5. Findings

Where the code, as modelled, does not have the property. Theorem names refer to
`Prop_*.v`; each refutation computes a concrete witness. Items without a theorem were
read in the source and lie outside the model.

### Compiler passes

1. `to_nnf` turns `!(p xor q)` into something else (`C03_nnf_refuted`); it leaves
   negations above `<->`, `==` and past-time operators, and `to_bnf` leaves `<->`, `==`
   and past-time operators (`C03_nnf_shape_refuted`, `C03_bnf_shape_refuted`).
2. Rewriting `false == p` gives `p` (`C04_rewrites_eq_refuted`); rules for `&&` and `||`
   look at two operands and drop the others (`C04_rewrites_nary_refuted`). The pipeline
   inherits both (`C10_pipeline_refuted`).
3. Flattening produces operators of arity above four (`C02_flatten_arity_refuted`); the
   egglog datatype has none above four.
4. The delay of once and historically uses the wrong bound of the operand, and that of
   since and trigger the lower bound (`C08_once_window_refuted`,
   `C08_since_window_refuted`). Delays are not recomputed when a definition is expanded
   (`C08_delay_after_expansion_refuted`).
5. A definition whose body is a bare name is not expanded (`C14_alias_refuted`).
6. Array `!=` is the conjunction of element-wise `!=` (`C13_inequality_refuted`); arrays
   of different length are compared up to the length of the left one
   (`C13_unequal_lengths_refuted`); alternating accesses such as `s.arr[0].b[0]` are not
   resolved (`C13_nested_access_refuted`); an out-of-range slice is only logged
   (`C13_slice_range_refuted`); the empty array literal raises NameError.
7. Set aggregation: an index into an array member of a bound variable is resolved before
   unrolling (`C11_member_index_refuted`); bound variables named like an input or a
   definition are captured (`C11_input_name_refuted`, `C11_definition_name_refuted`);
   nested use of one bound name always fails (`C11_shadowing_rejected`); a one-element
   set gives a one-operand conjunction that the monitor never reports
   (`C11_singleton_refuted`); counting over a temporal body crashes the assembler;
   `deepcopy_expr` has no case for slices.
8. Enum members numbered automatically may collide with explicit values (`C36_refuted`).
9. A specification set with one formula prints like that formula, so CSE can replace the
   set itself (observed in the source).

### Type checker

10. Indices equal to the length and negative indices are accepted
    (`C13_index_check_refuted`, `C35_gaps_refuted`); so are a wrong number of struct
    members, modulo by the constant 0, arithmetic and ordering on Booleans, bound
    variables outside their scope, and enum-valued `prev` through a definition
    (`C35_gaps_refuted`).
11. Future-time and past-time operators can be mixed through definitions
    (`C35_mixed_time_refuted`); definitions are checked in the time mode left by the
    section before, so a future-time definition ahead of the first FTSPEC is refused
    (`C35_definition_place_refuted`).
12. Names may be declared twice across sections (`C35_duplicate_refuted`).
13. Without the Booleanizer, `TAU`, integer constants and numeric array elements are
    accepted (`C35_numbers_refuted`); a struct, array or enum signal raises TypeError.

### Assembler and binary format

14. A node shared between the future-time and past-time sections has its configuration
    or booleanizer instruction overwritten (`C16_shared_node_refuted`,
    `C28_shared_definition_refuted`).
15. Negative integer constants raise `struct.error` (`C18_negative_refuted`); constants
    from 2^31 to 2^32 - 1 load as negative numbers (`C18_unsigned_refuted`).
16. The C loader sign-extends the low word of a double: 0.1 is loaded as another number
    (`C17_round_trip_refuted`).
17. `prev` of `prev`, which definitions make possible, is off by one step
    (`C29_nested_prev_refuted`); `prev` with a Boolean initial constant crashes.
18. Generated bounds are too small for atomics without the Booleanizer, for signals
    with a trace header, and for output verdicts (`C20_atomics_refuted`, `C20_signals_refuted`,
    `C20_outputs_refuted`); the contract bound loses the last contract
    (`C42_generated_bound_refuted`).
19. With a PTSPEC section before an FTSPEC section the names in reports are exchanged
    (`C41_section_order_refuted`); a contract label used again in another section hides
    the first contract (`C42_same_label_refuted`).
20. A past-time section with a constant formula raises KeyError.

### Monitors

21. A constant operand that decides its operator makes a step of the C monitor loop for
    ever (`C25_absorbing_constant_refuted`). A constant that does not decide the
    connective loops too when the other operand is a past-time formula known ahead of
    its time, as in `true && O[1,2] p` (`C25_past_neutral_constant_refuted`).
22. The queue sizes the compiler computes are too small: the monitor reports a wrong
    verdict (`C26_computed_sizes_refuted`). No repeated subformula is
    needed: `(F[0,5] a0 && a1) && a2` is misreported by both monitors
    (`C26_conjunction_refuted`).
23. Since and trigger report wrong verdicts even on atoms, in C and in Rust
    (`C27_since_refuted`, `C27_trigger_refuted`).
24. C does not compact its queue after a first verdict (false, 0), Rust does; reports
    come at different steps (`C30_same_time_refuted`).
25. Soft and hard reset of the C monitor leave the control blocks: a reloaded monitor
    reports wrong verdicts or none (`C31_c_reload_refuted`). `Monitor::reset` in Rust
    zeroes one counter twice and the other never: the old specification goes on
    (`C31_rust_reload_refuted`).
26. The estimate of the execution time truncates each latency, so it is below the true
    sum (`C40_rounding_refuted`), and is 0 when an operator is missing.

### Solvers and code generation

27. QF_UFLIA passes wpd instead of wpd + 1 as length (`C33_qf_unsat_refuted`,
    `C33_qf_sat_refuted`); UFLIA's length looks at two operands (`C33_uflia_unsat_refuted`,
    `C33_uflia_sat_refuted`) and is 1 for a comparison (`C33_uflia_comparison_refuted`);
    strict UFLIA treats F[0,0] and F[1,1] like G (`C33_uflia_strict_refuted`); the strict
    queries of the theories disagree (`C33_strict_disagree_refuted`).
28. Word-level code: constant true is the word 1 (`C34_constant_refuted`), `<->` compares
    whole words (`C34_equivalence_refuted`), until loops are bounded by ub + 1
    (`C34_until_refuted`), long remainders shift by more than the word size
    (`C34_wide_interval_refuted`).

### Front end

29. Map files: ranges that start at 10 or above are not expanded (`C37_range_refuted`),
    three-digit indices are misread (`C37_index_refuted`), generated maps of large arrays
    cannot be read back (`C37_generated_refuted`); `a:1:junk` and `a:1_0` are accepted.
30. Guard dependencies are followed one level only (`C38_transitive_guards_refuted`).
31. `trace.py` error messages use a key that options do not have (observed in the source).
32. Standard format: formulas with xor, specifications with future and past operators and
    conjunctions of one operand are written but refused on reading (`C43_xor_refuted`,
    `C43_mixed_refuted`, `C43_single_operand_refuted`).
33. Standard format: illegal characters are reported but dropped, so `~a0` compiles as `a0`
    (`C44_illegal_characters_refuted`); a comment behind a formula swallows the line break
    that ends it (`C44_trailing_comment_refuted`); `a0 | a1 & a2` is read against the
    precedences of the reference manual (`C44_documented_precedence_refuted`).
34. C2PO lexer and printer (observed in the source): an identifier that starts with `prev`
    is split; `x-1` is read as `x` followed by `-1`; `forexactly` is printed without its
    count and enumerations in a form the reader refuses.
35. Rust booleanizer: every arithmetic instruction overwrites `overflow_error`, so an
    overflow followed by an instruction without one goes unreported
    (`C45_missed_overflow_refuted`); `i32::MIN % -1` panics (`C45_panic_refuted`);
    `(-3) ** 20` saturates to -2^31 (`C28_rust_power_refuted`).
36. C and Rust booleanizers differ: overflow wraps in C and saturates in Rust
    (`C30_overflow_refuted`), `x > y` on floats is exact in C and up to epsilon in Rust
    (`C30_float_comparison_refuted`), `2 ** -1` is 0 in C and 2^31 - 1 in Rust
    (`C30_negative_exponent_refuted`), and the C loader spoils float constants such as 0.1
    (`C30_float_constant_refuted`).
37. C trace reader (`csv_trace.c`, `lib.c` 55-66): empty cells vanish and shift the rest of
    the row (`C46_empty_cell_refuted`); without the booleanizer every cell other than the
    one character `0` is true, so `  0`, `00` and, in files with CR LF, the last column are
    true (`C46_documented_example_refuted` is the example of signal_mapping.md,
    `C48_zeros_refuted` the difference to Rust); lines longer than BUFSIZ are split into
    several steps (`C46_long_line_refuted`); `5` in a real column overwrites half of the
    double (`C46_whole_float_refuted`); comment lines after the first row are steps
    (`C48_comment_refuted`); `@5` without a value passes a null pointer to strcmp.
38. `trace.py`: a repeated column name is a KeyError instead of the announced right-most
    column (`C46_repeated_name_refuted`); an empty first line is an IndexError; a generated
    trace does not match a numbering with gaps (`C47_gap_refuted`).
39. `parse_c2po.py` lexer: an illegal character is reported (113-115) but the parser's
    status stays good, so `x =< 5` is monitored as `x < 5` (`C50_illegal_refuted`); `prev`
    has no word boundary, so no name can begin with it (`C50_prev_names_refuted`), and `T`
    and `TAU` are operators though language.md does not reserve them; a minus before a
    digit always belongs to the number, so `x-1 > 5` is rejected (`C50_minus_refuted`).
40. `parse_c2po.py` grammar: `->` groups to the left and `pow` binds like `*`
    (`2 * x pow 2` is `(2 * x) pow 2`, Examples `grouping_left`, `grouping_pow`); an empty
    array `{}` raises a NameError (412-414); the label made for a specification without
    one can be another specification's label (`C52_labels_refuted`); the option
    `mission-time` of the parse_c2po command (724) is never used, the parser takes the
    context's value (703).
41. `write_c2po`: files written for programs with `sqrt x`/`abs x` of an operand without
    its own parentheses, counting aggregations, enums, calls without arguments or floats
    printed with an exponent are rejected on reading (`C51_function_refuted`,
    `C51_count_refuted`, `C51_enum_refuted`, `C51_call_refuted`, `C51_float_refuted`);
    labels written by the user as `__x__` are dropped (`C51_label_refuted`).
42. Equality saturation: a result that is one atomic is read as the input called
    `a<number>`: a KeyError, or the wrong input if one has that name
    (`C54_bare_atomic_refuted`).
43. Equality saturation of a program whose last section is PTSPEC: every result with a
    temporal operator is refused as mixed-time and the compilation fails
    (`C54_past_section_refuted`).
44. `main.py` 328-329 puts no blank between `temporal` and `--egglog-bin` and passes the
    option `--smt-solver-path`, which the command does not have (observed).
45. `type_check.py` starts a new set of names for every section, so two sections may
    give two specifications the same name (observed).
46. Equality saturation, greedy extraction: reading back a formula forgets all other
    users of its inputs. With the formulas `a && F[0,5] b` and `!a`, the queue of `a` has
    length 1 instead of 6 and the first formula is reported false at a time where it
    holds (`C55_greedy_shared_input_refuted`).
47. Equality saturation, extraction by integer programming: every further occurrence of an
    input in one formula forgets the earlier ones; `(a && F[0,5] b) || (!a && F[0,5] c)` is
    reported wrongly (`C55_ilp_repeated_input_refuted`).
48. Extraction by integer programming, extended operators off and temporal rules off: a formula
    with `->`, `G` or `F` makes the integer program infeasible and the command fails, although
    the formula could be kept (`C56_no_temporal_rules_refuted`).
49. The objective of the integer program is not the queue memory: the best-case delay of a
    Boolean operator is taken as the largest (the compiler uses the smallest) of its operands',
    that of a temporal one forgets its operands. `(a1 && (true U[3,3] a0)) && (true U[5,5] a2)`
    is preferred to `a1 && ((true U[3,3] a0) && (true U[5,5] a2))`, whose queues are smaller
    (`C56_least_memory_refuted`).
50. The delays of an expression are recorded when it is constructed, with 0 for a name, and not
    again when the name is replaced by its formula. In `FTSPEC late: F[0,5] q; p && !late;` the
    queue of `p` gets one slot and the monitor reports false at time 0 although the formula
    holds; with `p && !(F[0,5] q)` written out it reports true (`C57_named_formula_refuted`).
51. The default queue sizes are also too small for past-time formulas. A past operator settles
    its value for times ahead of the trace, and nested ones do so with verdicts of changing
    value, while the size (scq.py 41-42) counts lower bounds only. `PTSPEC O[0,3] (H[0,1] p) && q;`
    is misreported at time 4 in C and in Rust (`C26_past_computed_sizes_refuted`,
    `C57_past_formula_refuted`).
52. Equivalence checking with symbolic bounds. Only the bound variables are asserted to be
    nonnegative, not the lower bounds written with them: `F[b0-1,b0-1] a0 -> F[0,b0] a0` is
    reported different from `true` because of b0 = 0 (`C58_negative_refuted`). An interval such
    as `[2,1]` is not rejected (the check in type_check.py 330-335 is for numeric intervals
    only); the assertion 2 <= 1 makes the query unsatisfiable and the formula equivalent to any
    other (`C58_backwards_refuted`). With M the traces have M + 1 steps, so
    `F[1,1] (F[0,M] a0)` and `F[1,M] a0` are reported equivalent (`C58_mission_refuted`; the
    repository's test fret_43 expects it). A pair without an encoding leaves `equiv` standing,
    only the return code tells (`C58_unencoded_refuted`). Read in the source, outside the
    model: `/` is emitted as division of reals (sat.py 666).
53. sat.py 703-751: queries speak about exact integers with SMT-LIB's division, the monitor
    computes with 32-bit integers that wrap around and rounds towards 0. So "unsat" is wrong
    for `x + 1 < x` (`C59_overflow_refuted`) and "sat" for `x / 2 + 1 == 0 && x + 1 == 0`,
    `x > 2147483647` and `x / 0 == 5` (`C59_rounding_refuted`, `C59_range_refuted`,
    `C59_zero_refuted`). Read in the source, outside the model: lines 719 and 728 encode the
    first two operands of a sum or product only, so a third, as flatten_multi_operators would
    make it, is dropped.
54. Reading equivalence files. `+ - * /` share one precedence level, so `b0 + b1 * 2` is read
    as `(b0 + b1) * 2` although the table is said to follow C (parse_equiv.py 91-102,
    `C60_precedence_refuted`). A comment swallows the end of its line, so a formula followed by
    a comment runs into the next line (line 19, `C60_trailing_comment_refuted`); an empty line
    is a syntax error (`C60_empty_line_refuted`); characters outside the language are reported
    but dropped, and the file is accepted (lines 83-85, `C60_illegal_characters_refuted`).
55. sat.py 1191-1214: the program of three or more specifications is checked by one conjunction,
    which the uflia query measures by its first two operands only (finding on C33). `p`, `q`,
    `G[1,2] r`, `G[1,2] !r` each are satisfiable, exclude each other, and the command prints
    "program : sat" or, without --print, no warning (`C61_uflia_program_refuted`,
    `C61_uflia_silent_refuted`). A past-time specification has no query in any theory and ends
    the command with an error before the program is checked (lines 1163-1166,
    `C61_past_stops_refuted`).
56. sat.py 1081-1096: write_smt_encoding without --formula, documented to write all formulas,
    goes through the future-time specifications only and succeeds (`C62_past_refuted`). Lines
    1064-1065 remove a file at the location before it is known whether there is anything to
    write, so a mistyped --formula loses it (`C62_file_lost_refuted`).
57. stats.py 101-108 replaces placeholders one after the other over the whole text, values
    already inserted included. A file `a%scq.c2po` is printed with the queue size in its name
    (`C63_percent_refuted`), `C:\new` on two lines (`C63_backslash_refuted`), and `%asmtl%F` for
    a file `temp.c2po` as `%asmtltemp` followed by `.c2po` (`C63_continued_refuted`).
58. Context.deepcopy (cpt.py 1564-1607), which push uses, leaves out enums, r2u2_output,
    r2u2_c_path and r2u2_bin_path, and Stats.deepcopy three statistics: after push and pop they
    are as in a new context (`C64_fields_lost_refuted`, `C64_stats_lost_refuted`). The list of
    instructions is shared and emptied in place by the next file read, so pop brings back a
    program without its instructions (`C64_assembly_lost_refuted`). Context.clear (1494-1518)
    does not clear enums (`C64_enums_stay_refuted`), so reading a file with an ENUM section twice
    in one session finds its names already in use (type_check.py 650-672).
    Program.deepcopy (1425-1431) rebuilds the specifications from the sections, which
    replace_spec (1362-1369) leaves alone: contracts replaced by desugar are back after push and
    pop (`C64_specs_lost_refuted`). It also enters the declarations in the live context, so push
    between reading a file with an ENUM section and type_check makes type_check fail
    (`C64_push_declares_refuted`).

## 6. Assumptions per theorem

`Print Assumptions` stands under every theorem in the `Prop_*.v` files. For each of
the theorems below it answers "Closed under the global context": no axiom of the
standard library or of any other library is used.

* `Prop_Transform.v`: `C01_remove_extended_equivalent`, `C01_remove_extended_shape`, `C02_binary_equivalent`, `C02_binary_shape`, `C02_flatten_equivalent`, `C02_arith_binary_value`, `C02_arith_binary_shape`, `C02_arith_flatten_value`, `C02_flatten_arity_refuted`, `C03_bnf_equivalent`, `C03_bnf_shape_partial`, `C03_bnf_shape_refuted`, `C03_nnf_refuted`, `C03_nnf_equivalent_partial`, `C03_nnf_no_xor_partial`, `C03_nnf_shape_partial`, `C03_nnf_shape_refuted`, `C09_release_equivalent`, `C09_release_shape`, `C09_sort_equivalent`, `C09_sort_shape`
* `Prop_Rewrite.v`: `C04_rewrites_equivalent_partial`, `C04_rewrites_legal_partial`, `C04_rewrites_eq_refuted`, `C04_rewrites_nary_refuted`
* `Prop_Egglog.v`: `C05_rules_equivalent`, `C05_saturation_equivalent`
* `Prop_Decompose.v`: `C07_decompose_equivalent`, `C07_decompose_shape`, `C07_decompose_legal`, `C07_unroll_equivalent`, `C07_unroll_shape`, `C07_unroll_defined`
* `Prop_Delay.v`: `C08_future_window`, `C08_past_window_partial`, `C08_since_window_refuted`, `C08_once_window_refuted`, `C08_past_causal`
* `Prop_Definitions.v`: `C14_expand_meaning`, `C14_meaning_exists`, `C14_no_names_left_partial`, `C14_macro_semantics_partial`, `C14_alias_refuted`, `C08_delay_after_expansion_refuted`
* `Prop_Graph.v`: `C15_postorder`, `C06_cse`
* `Prop_Pipeline.v`: `C10_pipeline_equivalent_partial`, `C10_pipeline_shape`, `C10_pipeline_refuted`
* `Prop_Size.v`: `C26_enough_sizes_sufficient`, `C26_default_sizes_sufficient`, `C26_scq_constant_sufficient`, `C26_computed_size_least`, `C26_conjunction_refuted`
* `Prop_Monitor.v`: `C23_reports_sound`, `C23_reports_in_order`, `C24_reports_timely`, `C24_delay_is_wpd`, `C25_steps_end`, `C25_fuel_irrelevant`, `C25_absorbing_constant_refuted`, `C26_computed_sizes_refuted`, `C27_since_refuted`, `C27_trigger_refuted`
* `Prop_Past.v`: `C27_once_historically_sound`, `C27_once_historically_in_order`, `C27_once_historically_timely`, `C25_past_steps_end`, `C26_past_scq_constant_sufficient`, `C26_past_enough_sizes_sufficient`, `C26_past_default_sizes_sufficient`, `C26_past_computed_sizes_refuted`, `C25_past_neutral_constant_refuted`
* `Prop_Mixed.v`: `C23_section_sound`, `C23_section_in_order`, `C24_section_timely`, `C27_section_sound`, `C27_section_timely`, `C25_sections_end`, `C26_sections_constant_sufficient`, `C26_sections_enough_sizes_sufficient`, `C26_sections_default_sizes_sufficient`
* `Prop_Queue.v`: `C21_truth_and_time_recovered`, `C21_word_is_its_parts`, `C21_set_keeps_time`, `C21_infinity`, `C22_queue_delivers`
* `Prop_Binary.v`: `C17_packs_iff_fits`, `C17_round_trip_partial`, `C17_temporal_round_trip`, `C17_float_constant_value`, `C17_round_trip_refuted`, `C18_accepted`, `C18_constant_loaded_partial`, `C18_negative_refuted`, `C18_unsigned_refuted`
* `Prop_Assembly.v`: `C16_assembly_well_formed`, `C16_shared_node_refuted`, `C19_queue_memory`, `C20_instruction_bound`, `C20_booleanizer_atomics`, `C20_generated_signals`, `C20_atomics_partial`, `C20_atomics_refuted`, `C20_signals_refuted`, `C20_outputs_refuted`
* `Prop_EndToEnd.v`: `C39_end_to_end`, `C39_constant_free`
* `Prop_Default.v`: `C39_default_sizes_end_to_end`, `C39_default_sizes_refuted`
* `Prop_Parents.v`: `C55_edits_complete`, `C55_cse_complete`, `C55_sizes`, `C55_recorded_end_to_end`, `C55_greedy_complete_partial`, `C55_ilp_complete_partial`, `C55_greedy_shared_input_refuted`, `C55_ilp_repeated_input_refuted`
* `Prop_Booleanizer.v`: `C28_atomics_evaluated`, `C28_values_unique`, `C29_prev_shifts`, `C39_signals_to_reports`, `C28_shared_definition_refuted`, `C29_nested_prev_refuted`
* `Prop_Wcet.v`: `C40_sum_exact`, `C40_sum_bounds`, `C40_rounding_refuted`, `C40_monotone`, `C40_missing_operator`
* `Prop_Enum.v`: `C36_refuted`, `C36_distinct_iff`, `C36_automatic_distinct`, `C36_every_member`
* `Prop_Commands.v`: `C38_composite_in_order`, `C38_guards_hold`, `C38_guard_blocks`, `C38_assembler_guards`, `C38_assembler_input`, `C38_command_outcome`, `C38_push_pop`, `C38_transitive_guards_refuted`, `C38_return_code`
* `Prop_Map.v`: `C37_reads_partial`, `C37_range_refuted`, `C37_index_refuted`, `C37_accepted_lines`, `C37_assigned_or_reported`, `C37_generated_partial`, `C37_generated_refuted`
* `Prop_Saturate.v`: `C54_encoding_sound`, `C54_encoding_total`, `C54_reader_grammar`, `C54_eqsat_equivalent_partial`, `C54_bare_atomic`, `C54_bare_atomic_refuted`, `C54_past_section`, `C54_past_section_refuted`
* `Prop_Ilp.v`: `C56_ilp_equivalent`, `C56_solvable`, `C56_reading`, `C56_document_equivalent`, `C56_no_temporal_rules_refuted`, `C56_least_memory_refuted`
* `Prop_MltlText.v`: `C43_round_trip_partial`, `C43_xor_refuted`, `C43_mixed_refuted`, `C43_single_operand_refuted`, `C44_grammar_partial`, `C44_unambiguous`, `C44_illegal_characters_refuted`, `C44_trailing_comment_refuted`, `C44_documented_precedence_refuted`
* `Prop_C2po.v`: `C49_expressions`, `C49_files`, `C49_one_reading`, `C49_one_expression`, `C50_spelling_partial`, `C50_layout`, `C50_names_sound`, `C50_names_refuted`, `C50_prev_names_refuted`, `C50_illegal_refuted`, `C50_minus_refuted`, `C51_written_partial`, `C51_read_again_partial`, `C51_function_refuted`, `C51_count_refuted`, `C51_enum_refuted`, `C51_call_refuted`, `C51_float_refuted`, `C51_label_refuted`, `C52_ids`, `C52_labels_refuted`
* `Prop_Contracts.v`: `C12_expanded_in_place`, `C12_one_status`, `C12_lines_true`, `C42_lines_complete`, `C12_end_to_end`, `C42_generated_bound_refuted`, `C42_same_label_refuted`, `C41_names_partial`, `C41_section_order_refuted`
* `Prop_Sugar.v`: `C11_set_aggregation_partial`, `C11_result_sound_partial`, `C11_shadowing_rejected`, `C13_arrays_structs_partial`, `C13_nested_access_refuted`, `C11_member_index_refuted`, `C13_unequal_lengths_refuted`, `C13_longer_array`, `C13_inequality_refuted`, `C13_index_range`, `C13_slice_range_refuted`, `C13_index_check_refuted`, `C11_input_name_refuted`, `C11_definition_name_refuted`, `C11_singleton_refuted`
* `Prop_Rust.v`: `C30_rust_finishes`, `C30_no_contradiction`, `C30_same_verdicts`, `C30_rust_sound`, `C30_operators_agree`, `C30_same_time_refuted`
* `Prop_RustBz.v`: `C17_rust_round_trip`, `C28_rust_atomics`, `C28_rust_values_unique`, `C45_overflow_reports_partial`, `C30_booleanizers_agree`, `C30_overflow_refuted`, `C30_float_comparison_refuted`, `C30_negative_exponent_refuted`, `C30_float_constant_refuted`, `C28_rust_power_refuted`, `C45_panic_refuted`, `C45_missed_overflow_refuted`
* `Prop_RustBoot.v`: `C19_rust_queue_memory`, `C30_same_program`, `C39_rust_end_to_end`, `C39_rust_signals_to_reports`
* `Prop_Sections.v`: `C30_sections_finish`, `C30_sections_no_contradiction`, `C30_sections_same_verdicts`, `C39_sections_end_to_end`, `C39_rust_sections_end_to_end`, `C39_sections_signals_to_reports`, `C39_rust_sections_signals_to_reports`, `C39_past_constant_free`
* `Prop_SectionDefault.v`: `C30_sections_enough_finish`, `C30_sections_enough_no_contradiction`, `C30_sections_enough_same_verdicts`, `C39_sections_default_sizes_end_to_end`, `C39_rust_sections_default_sizes_end_to_end`
* `Prop_Csv.v`: `C46_reader_partial`, `C46_columns_partial`, `C46_numbers_partial`, `C46_short_rows`, `C46_time_stamps`, `C46_no_header`, `C39_csv_to_reports`, `C46_empty_cell_refuted`, `C46_documented_example_refuted`, `C46_long_line_refuted`, `C46_whole_float_refuted`, `C46_repeated_name_refuted`, `C47_generated_partial`, `C47_gap_refuted`, `C48_readers_agree_partial`, `C48_same_numbers`, `C48_zeros_refuted`, `C48_comment_refuted`
* `Prop_Text.v`: `C53_text_to_reports_partial`, `C53_rust_text_to_reports_partial`
* `Prop_Recorded.v`: `C57_default_options_partial`, `C57_rust_default_options_partial`, `C57_named_formula_refuted`, `C57_past_formula_refuted`
* `Prop_Reload.v`: `C31_booleanizer_clean`, `C31_c_reload_refuted`, `C31_c_cleared`, `C31_c_unused_partial`, `C31_rust_reload_refuted`, `C31_rust_reload_partial`
* `Prop_Sabre.v`: `C34_monitor_partial`, `C34_short_intervals`, `C34_constant_refuted`, `C34_equivalence_refuted`, `C34_until_refuted`, `C34_wide_interval_refuted`
* `Prop_Smt.v`: `C32_supported`, `C32_exact`, `C32_equivalence`, `C32_strict`, `C32_strict_complete`, `C33_qf_supported`, `C33_uflia_supported`, `C33_uflia_exact_partial`, `C33_uflia_equivalence_partial`, `C33_uflia_strict_partial`, `C33_uflia_strict_complete`, `C33_qf_short_partial`, `C33_qf_strict`, `C33_qf_strict_complete`, `C33_qf_unsat_refuted`, `C33_qf_sat_refuted`, `C33_uflia_unsat_refuted`, `C33_uflia_sat_refuted`, `C33_uflia_comparison_refuted`, `C33_uflia_strict_refuted`, `C33_strict_disagree_refuted`
* `Prop_Type.v`: `C35_sound_partial`, `C35_times`, `C35_booleanizer`, `C35_gaps_refuted`, `C35_mixed_time_refuted`, `C35_definition_place_refuted`, `C35_duplicate_refuted`, `C35_numbers_refuted`
* `Prop_Symbolic.v`: `C58_pair_partial`, `C58_mission_partial`, `C58_strict_partial`, `C58_file_partial`, `C58_verdict`, `C58_negative_refuted`, `C58_mission_refuted`, `C58_backwards_refuted`, `C58_unencoded_refuted`
* `Prop_SmtArith.v`: `C59_encoded`, `C59_exact_partial`, `C59_monitor`, `C59_unsat_partial`, `C59_overflow_refuted`, `C59_rounding_refuted`, `C59_range_refuted`, `C59_zero_refuted`
* `Prop_EquivText.v`: `C60_grammar_partial`, `C60_unambiguous`, `C60_every_file`, `C60_one_file`, `C60_verdict_partial`, `C60_precedence_refuted`, `C60_illegal_characters_refuted`, `C60_trailing_comment_refuted`, `C60_empty_line_refuted`
* `Prop_SatCommand.v`: `C61_right_words`, `C61_success`, `C61_silent`, `C61_warned`, `C61_every_line`, `C61_strict_unsat`, `C61_uflia_right_words_partial`, `C61_uflia_silent_partial`, `C61_uflia_program_refuted`, `C61_uflia_silent_refuted`, `C61_past_stops_refuted`
* `Prop_SmtFiles.v`: `C62_all_partial`, `C62_one`, `C62_others_kept`, `C62_past_refuted`, `C62_file_lost_refuted`
* `Prop_StatsText.v`: `C63_format_partial`, `C63_format_simple_partial`, `C63_percent_refuted`, `C63_backslash_refuted`, `C63_continued_refuted`
* `Prop_Snapshot.v`: `C64_restored_partial`, `C64_push_partial`, `C64_assembly_partial`, `C64_valid`, `C64_fields_lost_refuted`, `C64_stats_lost_refuted`, `C64_specs_lost_refuted`, `C64_push_declares_refuted`, `C64_assembly_lost_refuted`, `C64_tables_cleared_partial`, `C64_stats_cleared`, `C64_enums_stay_refuted`
