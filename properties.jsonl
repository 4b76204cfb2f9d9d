{"id": "C01", "title": "Removing extended operators preserves meaning", "statement": "After the compiler replaces xor, ->, F, G, O and H by the core operators the monitor supports, every specification still has exactly the same truth value at every time of every trace, and no xor, ->, F, G, O or H is left anywhere in it.", "quantifier": "for every specification tree (any depth, any operator arity, any interval), every trace, every time index", "why_tests_cant": "specifications nest to arbitrary depth and intervals/traces are unbounded; a test only samples a few shapes and traces", "anchors": ["compiler/c2po/transform.py:remove_extended_operators", "compiler/c2po/cpt.py:has_no_extended_operators"]}
{"id": "C02", "title": "Binarising and flattening n-ary operators preserves meaning", "statement": "Turning n-ary &&, || (and +, *) into nested binary operators, or flattening nested ones up to arity four, never changes the truth value (or number) an expression denotes; after binarisation every operator has at most two operands, after flattening none has more than four.", "quantifier": "for every expression tree with operators of any arity >= 1, every valuation and time", "why_tests_cant": "arity and nesting are unbounded", "anchors": ["compiler/c2po/transform.py:multi_operators_to_binary", "compiler/c2po/transform.py:flatten_multi_operators"]}
{"id": "C03", "title": "Normal forms preserve meaning", "statement": "Converting a specification to Boolean normal form or to negation normal form yields a specification with the same truth value at every time of every trace; the result is really in that normal form.", "quantifier": "for every specification tree, every trace, every time", "why_tests_cant": "the rules interact over arbitrarily nested negations; tests cover only chosen nestings", "anchors": ["compiler/c2po/transform.py:to_bnf", "compiler/c2po/transform.py:to_nnf", "compiler/c2po/cpt.py:is_in_bnf/is_in_nnf guards"]}
{"id": "C04", "title": "Rewrite optimisation preserves meaning", "statement": "Running the algebraic rewriting optimisation (on by default) on a specification never changes its truth value at any time of any trace.", "quantifier": "for every specification tree accepted by the type checker (including n-ary conjunctions and Boolean equality), every trace, every time", "why_tests_cant": "there are unboundedly many interval combinations and nested matches; each rule has side conditions on four interval bounds", "anchors": ["compiler/c2po/rewrite.py:optimize_rewrites"]}
{"id": "C05", "title": "Equality-saturation rule set is sound", "statement": "Every rewrite rule handed to the equality-saturation engine relates two formulas that are equivalent at every time of every trace whenever the rule's side condition holds, so whatever term the engine extracts is equivalent to the input.", "quantifier": "for every rule, every instantiation of its formula and bound variables that describes legal intervals, every trace, every time", "why_tests_cant": "rule instantiations range over all formulas and all integer bounds", "anchors": ["compiler/c2po/egglog/rewrites/temporal.egg", "compiler/c2po/egglog/rewrites/const_folding.egg", "compiler/c2po/egglog/rewrites/multi_arity.egg", "compiler/c2po/egglog/rewrites/associative.egg", "compiler/c2po/egglog/rewrites/commutative.egg"]}
{"id": "C06", "title": "Common subexpression elimination shares only equal expressions", "statement": "After common-subexpression elimination each formula denotes the same expression as before, and no two distinct nodes of the shared program denote syntactically identical expressions.", "quantifier": "for every program (set of formulas over a shared expression graph)", "why_tests_cant": "graphs of every shape and sharing pattern", "anchors": ["compiler/c2po/cse.py:optimize_cse", "compiler/c2po/cpt.py:to_prefix_str"]}
{"id": "C07", "title": "Interval decomposition and temporal unrolling preserve meaning", "statement": "Splitting a temporal operator over a long interval into nested operators over short intervals, and unrolling temporal operators into Boolean combinations of single-step operators, yield equivalent specifications.", "quantifier": "for every specification, every interval, every decomposition granularity used by the compiler, every trace, every time", "why_tests_cant": "interval lengths are unbounded and the greedy power-of-two decomposition has many cases", "anchors": ["compiler/c2po/cpt.py:decompose_intervals", "compiler/c2po/cpt.py:unroll_temporal_operators"]}
{"id": "C08", "title": "Propagation delays bound what a verdict depends on", "statement": "The verdict of a future-time specification at time i depends only on the trace between i + best-case delay and i + worst-case delay reported by the compiler; changing the trace elsewhere cannot change it. Likewise for past-time specifications on the past window.", "quantifier": "for every specification, every pair of traces agreeing on the window, every time", "why_tests_cant": "quantifies over pairs of infinite traces", "anchors": ["compiler/c2po/cpt.py:TemporalOperator.__init__", "compiler/c2po/cpt.py:Operator.__init__", "compiler/c2po/cpt.py:Program.get_max_wpd"]}
{"id": "C09", "title": "Release removal and operand sorting preserve meaning", "statement": "Replacing release by until/negation and reordering operands of commutative operators by delay never changes the truth value of a specification.", "quantifier": "for every specification, trace and time", "why_tests_cant": "unbounded trees and operand lists", "anchors": ["compiler/c2po/transform.py:remove_release_operators", "compiler/c2po/transform.py:sort_operands_by_pd"]}
{"id": "C10", "title": "Whole optimisation pipeline preserves meaning", "statement": "The composition of the passes the compiler runs by default (rewrites, extended-operator removal, CSE, binarisation) maps each specification to an equivalent one that the monitor can execute.", "quantifier": "for every specification with binary operators, every trace, every time", "why_tests_cant": "composition of passes over unbounded trees; each pass's output shape is the next pass's precondition", "anchors": ["compiler/c2po/main.py:compile", "compiler/c2po/main.py:cli"]}
{"id": "C11", "title": "Set aggregation means what it says", "statement": "foreach / forsome / forexactly / foratleast / foratmost over an array hold exactly when, respectively, all / some / exactly n / at least n / at most n of the elements satisfy the body.", "quantifier": "for every finite set of any size, every body, every n, every valuation", "why_tests_cant": "set sizes and counts are unbounded", "anchors": ["compiler/c2po/desugar.py:unroll_set_aggregation"]}
{"id": "C12", "title": "Contracts are expanded into their three formulas", "statement": "An assume-guarantee contract is monitored through three formulas reporting inactive, invalid and verified; at every time they are mutually consistent: they equal the assumption, the implication and the conjunction of assumption and guarantee.", "quantifier": "for every assumption/guarantee pair, trace and time, and every list of specifications containing contracts", "why_tests_cant": "arbitrary formulas and positions of contracts in the specification list", "anchors": ["compiler/c2po/desugar.py:resolve_contracts", "compiler/c2po/cpt.py:Contract"]}
{"id": "C13", "title": "Array and struct accesses resolve to the selected component", "statement": "Accessing an element of an array or a member of a struct denotes exactly the value the programmer put there; elementwise operators on arrays mean the operator holds for every element; out-of-range accesses are rejected.", "quantifier": "for every (nested) array/struct expression, index, valuation", "why_tests_cant": "nesting depth and sizes unbounded", "anchors": ["compiler/c2po/desugar.py:resolve_struct_accesses", "compiler/c2po/desugar.py:resolve_array_accesses", "compiler/c2po/desugar.py:unroll_array_accesses", "compiler/c2po/type_check.py:type_check_expr"]}
{"id": "C14", "title": "Macro expansion is substitution", "statement": "Expanding definitions yields the expression obtained by substituting every definition for its name, leaves no defined name behind, and terminates, also when definitions refer to earlier definitions.", "quantifier": "for every acyclic list of definitions and every specification", "why_tests_cant": "definition chains of any length", "anchors": ["compiler/c2po/desugar.py:expand_definitions"]}
{"id": "C15", "title": "Traversal visits each node once, children first", "statement": "The traversal every compiler pass relies on yields every reachable node of the (shared) expression graph exactly once and never before any of its operands.", "quantifier": "for every finite acyclic expression graph with arbitrary sharing", "why_tests_cant": "graphs of unbounded size and sharing", "anchors": ["compiler/c2po/cpt.py:postorder"]}
{"id": "C16", "title": "Assembled programs are well-formed", "statement": "In the generated assembly the k-th temporal instruction has identifier k and owns queue k, every sub-formula operand refers to an earlier instruction that computes exactly that operand, and each queue is configured exactly once, in order, before any temporal parameters are configured.", "quantifier": "for every program of core operators with at most two operands", "why_tests_cant": "unboundedly many programs; depends on traversal and dictionary order", "anchors": ["compiler/c2po/assemble.py:gen_assembly", "compiler/c2po/assemble.py:gen_ft_instruction", "compiler/c2po/assemble.py:gen_tl_operand", "compiler/c2po/assemble.py:gen_ft_scq_instructions"]}
{"id": "C17", "title": "Binary encoding round-trips through the monitor's loader", "statement": "The C monitor's loader, reading the bytes the compiler writes, recovers exactly the instruction list that was assembled: same opcodes, operand kinds, operand values, identifiers, integer constants and configuration commands, in the same order.", "quantifier": "for every instruction list whose fields fit the encoding, any length", "why_tests_cant": "unbounded instruction lists and 2^32 field values", "anchors": ["compiler/c2po/assemble.py:pack_instruction", "compiler/c2po/assemble.py:pack_bz_instruction", "compiler/c2po/assemble.py:pack_tl_instruction", "compiler/c2po/assemble.py:pack_cg_instruction", "compiler/c2po/assemble.py:assemble", "monitors/c/src/internals/process_binary.c:r2u2_process_binary", "monitors/c/src/instructions/mltl.c", "monitors/c/src/instructions/booleanizer.c"]}
{"id": "C18", "title": "Every well-typed integer constant can be assembled", "statement": "If the type checker accepts an integer constant for a signed integer type, assembling the program succeeds and the monitor loads that very constant.", "quantifier": "for every integer in the accepted range (negative ones included)", "why_tests_cant": "2^32 values and the sign boundary", "anchors": ["compiler/c2po/assemble.py:pack_bz_instruction", "compiler/c2po/type_check.py:type_check_expr"]}
{"id": "C19", "title": "Queue memory layout is disjoint and in bounds", "statement": "After loading a specification, the memory regions of all queues and of all temporal parameter blocks are pairwise disjoint and lie inside the arena whose size the compiler reports in the generated bounds file.", "quantifier": "for every assembled program, any number of queues and sizes", "why_tests_cant": "unbounded numbers of queues", "anchors": ["monitors/c/src/engines/mltl.c:r2u2_mltl_configure_instruction_dispatch", "monitors/c/src/memory/shared_connection_queue.h:r2u2_scq_temporal_get", "compiler/c2po/assemble.py:compute_bounds", "monitors/c/src/memory/monitor.h"]}
{"id": "C20", "title": "Generated bounds are sufficient", "statement": "Every index the monitor uses while running an assembled program (instructions, atomics, signals, queue slots, outputs) is smaller than the corresponding bound the compiler generated.", "quantifier": "for every assembled program and every signal mapping", "why_tests_cant": "depends on arbitrary (possibly sparse) signal maps and program shapes", "anchors": ["compiler/c2po/assemble.py:compute_bounds", "compiler/c2po/atomics.py:compute_atomics", "compiler/c2po/cpt.py:assign_signal_ids"]}
{"id": "C21", "title": "Verdict/timestamp packing is lossless", "statement": "Packing a truth value and a timestamp below 2^31 into one 32-bit word and unpacking gives both back; setting the truth bit never disturbs the timestamp, and distinct verdicts have distinct words.", "quantifier": "for every 32-bit word / every timestamp below 2^31", "why_tests_cant": "2^32 cases", "anchors": ["monitors/c/src/internals/types.h:get_verdict_truth/get_verdict_time/set_verdict_true/set_verdict_false"]}
{"id": "C22", "title": "Connection queues deliver every verdict in order", "statement": "A consumer asking a queue for the verdict at or after a given time receives the truth value the producer recorded for that time, with an end time up to which that value holds; it never receives a value for a time the producer has not decided, provided the producer is never more than the queue's capacity ahead of the consumer.", "quantifier": "for every sequence of writes (in increasing time) and reads by any number of consumers, every capacity", "why_tests_cant": "unbounded interleavings of writes and reads, wrap-around and merging of equal verdicts", "anchors": ["monitors/c/src/memory/shared_connection_queue.c:r2u2_scq_write", "monitors/c/src/memory/shared_connection_queue.c:r2u2_scq_read"]}
{"id": "C23", "title": "Future-time verdicts are sound", "statement": "Every verdict the C monitor reports for a future-time specification is the MLTL truth value of that specification, for the reported time and for every earlier time not yet reported; reported times strictly increase.", "quantifier": "for every future-time program (any formulas, any sharing) whose queues are large enough, every input trace of any length", "why_tests_cant": "all traces, all formulas; the algorithm is incremental with early evaluation", "anchors": ["monitors/c/src/engines/mltl.c:r2u2_mltl_update", "monitors/c/src/engines/engines.c:r2u2_engine_step"]}
{"id": "C24", "title": "Future-time verdicts are on time", "statement": "By the end of step i + worst-case delay the monitor has reported a verdict for time i.", "quantifier": "for every future-time program whose queues are large enough, every trace, every time", "why_tests_cant": "liveness over all traces and formulas; depends on the re-looping logic inside a step", "anchors": ["monitors/c/src/engines/mltl.c:r2u2_mltl_update", "monitors/c/src/engines/engines.c:r2u2_engine_step", "compiler/c2po/cpt.py:TemporalOperator.__init__"]}
{"id": "C25", "title": "A monitor step always terminates", "statement": "One call of the monitor's step function returns for every program the compiler assembles and every input.", "quantifier": "for every assembled program, every reachable monitor state, every input", "why_tests_cant": "non-termination cannot be observed by a finite test", "anchors": ["monitors/c/src/engines/engines.c:r2u2_engine_step", "monitors/c/src/engines/mltl.c:check_operand_data", "compiler/c2po/assemble.py:gen_tl_operand"]}
{"id": "C26", "title": "Queue sizes computed by the compiler are sufficient", "statement": "With the queue sizes the compiler computes (no extra constant), no unread verdict is ever overwritten, so every reported verdict is correct.", "quantifier": "for every future-time program and every trace", "why_tests_cant": "overwriting needs rare combinations of batches of verdicts; random tests nearly never hit it", "anchors": ["compiler/c2po/scq.py:compute_scq_sizes", "monitors/c/src/memory/shared_connection_queue.c:r2u2_scq_write", "monitors/c/src/engines/mltl.c:r2u2_mltl_update"]}
{"id": "C27", "title": "Past-time verdicts are sound", "statement": "Every verdict the monitor reports for a past-time specification (once, historically, since, trigger) is its ptMLTL truth value.", "quantifier": "for every past-time program, every trace, every time", "why_tests_cant": "all traces; the since/trigger algorithms keep only the last edge", "anchors": ["monitors/c/src/engines/mltl.c:r2u2_mltl_update (SINCE, TRIGGER)", "monitors/rust/r2u2_core/src/engines/mltl.rs:since_operator", "monitors/rust/r2u2_core/src/engines/mltl.rs:trigger_operator"]}
{"id": "C28", "title": "Atomic expressions are evaluated as written", "statement": "For every step, the Boolean the monitor feeds to the temporal engine for a relational/arithmetic expression over integer signals is the value of that expression under 32-bit two's-complement arithmetic.", "quantifier": "for every well-typed integer expression (any depth and sharing), every signal valuation", "why_tests_cant": "unbounded expressions, 2^32 values per signal", "anchors": ["compiler/c2po/assemble.py:gen_bz_instruction", "monitors/c/src/engines/booleanizer.c:r2u2_bz_update"]}
{"id": "C29", "title": "prev yields the value of the previous step", "statement": "prev(e) evaluates at step t+1 to the value of e at step t (and at step 0 to its initial value), for every expression e the compiler accepts.", "quantifier": "for every expression with prev, every trace, every step", "why_tests_cant": "history-dependent, nested prev through definitions", "anchors": ["compiler/c2po/assemble.py:gen_assembly", "monitors/c/src/engines/booleanizer.c:r2u2_bz_update", "compiler/c2po/type_check.py:type_check_expr"]}
{"id": "C30", "title": "C and Rust monitors agree", "statement": "Given the same program and the same inputs, the C and the Rust implementation of booleanizer, queues and operators report the same verdicts in the same order.", "quantifier": "for every sequence of queue operations / every program and trace", "why_tests_cant": "equivalence of two implementations over all histories", "anchors": ["monitors/c/src/memory/shared_connection_queue.c", "monitors/rust/r2u2_core/src/memory/scq.rs", "monitors/rust/r2u2_core/src/engines/mltl.rs", "monitors/c/src/engines/booleanizer.c", "monitors/rust/r2u2_core/src/engines/booleanizer.rs"]}
{"id": "C31", "title": "Reloading a specification starts from a clean state", "statement": "Loading a specification into a monitor that has already run behaves exactly like loading it into a fresh monitor.", "quantifier": "for every earlier history, every specification, every trace", "why_tests_cant": "depends on arbitrary earlier histories", "anchors": ["monitors/c/src/lib.c", "monitors/c/src/memory/monitor.c", "monitors/c/src/internals/process_binary.c"]}
{"id": "C32", "title": "Bit-vector satisfiability encoding is exact", "statement": "The bit-vector query the compiler sends to the SMT solver is satisfiable exactly when some trace satisfies the formula at time zero.", "quantifier": "for every future-time formula in the supported fragment", "why_tests_cant": "existential over all traces, formulas unbounded", "anchors": ["compiler/c2po/sat.py:to_qf_bv_smtlib2"]}
{"id": "C33", "title": "Uninterpreted-function satisfiability encodings are exact", "statement": "The QF_UFLIA and UFLIA queries are satisfiable exactly when some trace satisfies the formula at time zero.", "quantifier": "for every future-time formula in the supported fragment", "why_tests_cant": "existential over all traces and models", "anchors": ["compiler/c2po/sat.py:to_qf_uflia_smtlib2", "compiler/c2po/sat.py:to_uflia_smtlib2"]}
{"id": "C34", "title": "Generated word-level C code computes the temporal operators", "statement": "The stand-alone C code generated from a specification computes, in each bit position, the truth value of the formula at that time.", "quantifier": "for every formula in the supported fragment, every word size, every trace", "why_tests_cant": "bit-parallel doubling loops over unbounded intervals and word counts", "anchors": ["compiler/c2po/sabre.py:gen_code"]}
{"id": "C35", "title": "Accepted programs are time-consistent and well-typed", "statement": "If the type checker accepts a program then every specification is a Boolean expression in which no operator is applied to operands of the wrong type, no future-time specification contains a past-time operator and vice versa, and no accepted access is out of range.", "quantifier": "for every program the parser can produce", "why_tests_cant": "all programs; definitions can hide operators", "anchors": ["compiler/c2po/type_check.py:type_check", "compiler/c2po/type_check.py:type_check_expr", "compiler/c2po/types.py"]}
{"id": "C36", "title": "Enum members are distinct constants", "statement": "Two different members of an enum never denote the same integer unless the user explicitly gave them the same value.", "quantifier": "for every enum declaration (any mix of explicit and automatic values)", "why_tests_cant": "unbounded member lists", "anchors": ["compiler/c2po/parse_c2po.py", "compiler/c2po/desugar.py:resolve_enum_references"]}
{"id": "C37", "title": "Signal map files map every listed signal", "statement": "Reading a map file assigns each listed name, and each element of each listed array range, its column, and nothing else.", "quantifier": "for every map file text", "why_tests_cant": "all texts; ranges with any number of digits", "anchors": ["compiler/c2po/map.py:parse_map_file"]}
{"id": "C38", "title": "Command guards and scripts stop on failure", "statement": "A composite command runs its parts in order and stops at the first failing one; a command whose precondition fails is never executed; the console's final return code reports a failure if any command failed.", "quantifier": "for every script (command sequence) and every state", "why_tests_cant": "all command sequences", "anchors": ["compiler/c2po/command.py:Command.execute", "compiler/c2po/command.py:CompositeCommand", "compiler/c2po/main.py:CommandConsole"]}
{"id": "C39", "title": "End to end: compiled specification is monitored correctly", "statement": "Compiling future-time specifications, and past-time ones over once and historically, loading the binary into the C or the Rust monitor and feeding any trace produces verdicts that are exactly the MLTL truth values of the source specifications: future-time ones within the worst-case delay, past-time ones at once, when queues are enlarged by the documented constant as needed.", "quantifier": "for every program of a future-time and a past-time section of the supported shape, every trace, every time", "why_tests_cant": "composition of compiler, encoding, loader and monitor over all traces", "anchors": ["compiler/c2po/main.py:compile", "compiler/c2po/assemble.py:assemble", "monitors/c/src/internals/process_binary.c:r2u2_process_binary", "monitors/c/src/engines/engines.c:r2u2_engine_step"]}
{"id": "C40", "title": "WCET estimate is the sum over executed instructions", "statement": "The CPU worst-case execution time reported equals the sum of the latencies of all executed instructions and is monotone: adding specifications never lowers it.", "quantifier": "for every program and latency table", "why_tests_cant": "all programs and tables", "anchors": ["compiler/c2po/wcet.py:compute_cpu_wcet"]}
{"id": "C41", "title": "Reports carry the label of their formula", "statement": "With auxiliary names enabled, every verdict the monitor prints is printed with the label of the formula it is the verdict of.", "quantifier": "for every specification file, any number and order of sections, formulas and contracts", "why_tests_cant": "the association goes through the order of sections and numbers; all orders and sizes matter", "anchors": ["compiler/c2po/assemble.py:pack_aliases", "compiler/c2po/parse_c2po.py:spec", "monitors/c/src/engines/aux_info.c:r2u2_aux_formula_report"]}
{"id": "C42", "title": "The status of every contract is reported", "statement": "With auxiliary names enabled and the generated bounds, the monitor prints the status (inactive, invalid, verified) of every contract for every time for which its formulas have been decided.", "quantifier": "for every specification file with any number of contracts, every trace and time", "why_tests_cant": "depends on table sizes and labels across sections", "anchors": ["monitors/c/src/engines/aux_info.c:r2u2_aux_contract_report", "monitors/c/src/internals/process_binary.c:r2u2_process_binary", "compiler/c2po/assemble.py:compute_bounds"]}
{"id": "C43", "title": "Formulas written in the MLTL standard format are read back unchanged", "statement": "When the compiler writes a specification in the MLTL standard format, the file it writes is accepted by the compiler's own reader and yields formulas equivalent to the ones written, in the same order, over the same signal indices and in the same (future or past) kind of section.", "quantifier": "for every list of formulas of any size and every mission time", "why_tests_cant": "formulas nest without bound and operand lists have any length; precedence and spacing mistakes show only for particular nestings", "anchors": ["compiler/c2po/cpt.py:to_mltl_std", "compiler/c2po/serialize.py:write_mltl", "compiler/c2po/parse_mltl.py:parse_mltl"]}
{"id": "C44", "title": "MLTL standard files are read by one grammar", "statement": "A file in the MLTL standard format is accepted exactly when it is a sequence of formulas, one per line; each is read with prefix operators binding tightest, then the binary temporal operators, then conjunction, disjunction, and implication with equivalence, all grouping to the left, and no file has two readings. Anything else is refused.", "quantifier": "for every text of any length and every mission time", "why_tests_cant": "infinitely many texts; a wrong precedence affects only particular combinations of operators", "anchors": ["compiler/c2po/parse_mltl.py:MLTLLexer", "compiler/c2po/parse_mltl.py:MLTLParser", "compiler/docs/user/mltl_std.md", "docs/References/mltl_grammar.md"]}
{"id": "C45", "title": "The Rust monitor reports arithmetic overflow exactly when it happens", "statement": "After each step the Rust monitor's result (and get_overflow_error) says whether some integer operation of the specification had no exact 32-bit result in that step: no report without an overflow, no overflow without a report, and never a crash instead.", "quantifier": "for every program with integer and float expressions of any depth and sharing, every sequence of signal values", "why_tests_cant": "unbounded expressions and histories, 2^32 values per signal; the error depends on which instruction happens to come last", "anchors": ["monitors/rust/r2u2_core/src/engines/booleanizer.rs:bz_update", "monitors/rust/r2u2_core/src/engines/mod.rs:r2u2_engine_step", "monitors/rust/r2u2_core/src/lib.rs:get_overflow_error"]}
{"id": "C46", "title": "Trace files: every signal gets the values of its column", "statement": "When a trace file with a header line is given to the compiler and to the command-line monitor, the monitor performs one step per row, and at step t the signal named in a column has the value written in that column of row t; the compiler numbers the signals by column and takes the number of rows as the trace length.", "quantifier": "for every trace file with any number of rows, columns, names and values, with and without a newline at the end", "why_tests_cant": "infinitely many files; the reader works line by line in a fixed buffer and token by token, so errors depend on line length and on particular cells", "anchors": ["monitors/c/src/cli/csv_trace.c:r2u2_csv_load_next_signals", "monitors/c/src/lib.c:r2u2_load_string_signal", "monitors/c/src/cli/main.c:main", "compiler/c2po/trace.py:parse_trace_file", "compiler/docs/user/signal_mapping.md"]}
{"id": "C47", "title": "Generated traces feed each signal its own values", "statement": "Running the monitor on a trace generated for a program gives every declared signal, at every step, a value generated for that signal, under the signal numbering the program was compiled with; reading the generated file as the program's trace yields the same numbering and the requested length.", "quantifier": "for every set of signals, every signal numbering, every length and every random choice", "why_tests_cant": "all numberings and lengths; the columns follow the order of the numbers, not the numbers themselves", "anchors": ["compiler/c2po/trace.py:generate_trace", "compiler/c2po/trace.py:parse_trace_file", "monitors/c/src/cli/csv_trace.c:r2u2_csv_load_next_signals"]}
{"id": "C48", "title": "The C and Rust command-line monitors read a trace file alike", "statement": "Given the same trace file, both monitors perform the same steps with the same signal values.", "quantifier": "for every trace file both accept, with any number of rows and columns", "why_tests_cant": "two independent readers and infinitely many files", "anchors": ["monitors/c/src/cli/csv_trace.c:r2u2_csv_load_next_signals", "monitors/c/src/lib.c:r2u2_load_string_signal", "monitors/rust/r2u2_cli/src/main.rs:main", "monitors/rust/r2u2_core/src/lib.rs:load_string_signal"]}
{"id": "C49", "title": "Specification files mean what the grammar says", "statement": "A specification file is accepted exactly when the documented grammar derives it; the expression tree obtained is the one given by the operator precedences, each file has one reading, and intervals, labels, contracts, declarations and definitions are taken as written.", "quantifier": "for every sequence of tokens, expressions and files of any size and nesting, every mission time", "why_tests_cant": "infinitely many files; a wrong precedence or associativity shows only in particular combinations of operators and silently monitors another formula", "anchors": ["compiler/c2po/parse_c2po.py:C2POParser", "compiler/c2po/sly/yacc.py:Parser.parse", "compiler/docs/user/language.md"]}
{"id": "C50", "title": "Names, numbers, blanks and comments in specification files", "statement": "Every name the manual allows can be used, keywords, operators and numbers are recognised as such, blanks, line breaks and comments do not change what a file means, and a file with characters outside the language is rejected.", "quantifier": "for every text over ASCII, every name, number and comment, and every layout", "why_tests_cant": "infinitely many texts; how a text is cut depends on the order of the patterns and on neighbouring characters", "anchors": ["compiler/c2po/parse_c2po.py:C2POLexer", "compiler/c2po/sly/lex.py:Lexer.tokenize", "compiler/docs/user/language.md"]}
{"id": "C51", "title": "A program written out in C2PO form reads back as the same program", "statement": "Reading the file written by write_c2po (the option --write-c2po) gives the program that was written: the same sections, declarations, definitions, labels, ids and expressions.", "quantifier": "for every program the reader can produce, of any size", "why_tests_cant": "infinitely many programs; writer and reader are separate code and must agree on precedence, parentheses and every literal", "anchors": ["compiler/c2po/serialize.py:write_c2po", "compiler/c2po/cpt.py:to_infix_str", "compiler/c2po/cpt.py:Program.__str__", "compiler/c2po/parse_c2po.py:C2POParser"]}
{"id": "C52", "title": "Specification ids follow the order of the file", "statement": "Specifications are numbered 0, 1, 2, ... in the order in which they stand in the file, across all sections; a contract takes three consecutive numbers; a specification without a label gets a label no other specification has.", "quantifier": "for every accepted file with any number of sections, specifications and contracts", "why_tests_cant": "the counter is state of the parser shared by all productions; every order and mix of sections matters", "anchors": ["compiler/c2po/parse_c2po.py:C2POParser.spec", "compiler/c2po/parse_c2po.py:C2POParser.fresh_label", "compiler/docs/user/language.md"]}
{"id": "C53", "title": "From specification file and trace file to true reports", "statement": "Given a C2PO file over Boolean inputs (with definitions, labels, future-time and past-time specifications) and a CSV trace whose header names its columns, the compiler accepts the pair, the monitor loads the binary and reads the trace, and the verdicts it reports under a specification's id are exactly what the text of that specification says about the named columns of the trace, however the trace continues; every verdict whose worst-case delay has passed is reported, past-time verdicts at once.", "quantifier": "for every such specification file (any number of sections, definitions, specifications, any nesting, any layout), every trace of any length and width in any column order, and every continuation of the trace", "why_tests_cant": "the text of the files, the order of the columns, the naming of subformulas and the verdicts' times range over unbounded sets, and all layers from lexer to monitor have to fit", "anchors": ["compiler/c2po/parse_c2po.py:parse_c2po", "compiler/c2po/main.py:compile", "compiler/c2po/trace.py:parse_trace", "compiler/c2po/cpt.py:Context.assign_signal_ids", "compiler/c2po/assemble.py:assemble", "monitors/c/src/cli/csv_trace.c", "monitors/c/src/cli/main.c", "monitors/rust/r2u2_core/src/lib.rs", "compiler/docs/user/language.md", "docs/Preliminaries/mltl.md"]}
{"id": "C54", "title": "Equality saturation replaces a formula by an equivalent one", "statement": "When the compiler optimises a future-time specification by equality saturation, the formula it sends to egglog is the specification's formula, and the formula it reads back from egglog's output and puts in its place holds on the same traces at the same times, has legal intervals and mentions no input the old one did not.", "quantifier": "for every formula over the operators egglog has (any size, any sharing of subformulas), every term saturation can reach, every layout of the printed term", "why_tests_cant": "formulas, reachable terms and printed layouts are unbounded sets, and equivalence is about all traces", "anchors": ["compiler/c2po/eqsat.py:to_egglog", "compiler/c2po/eqsat.py:optimize_eqsat", "compiler/c2po/parse_egglog_output.py:parse", "compiler/c2po/egglog"]}
{"id": "C55", "title": "The compiler knows every user of an expression", "statement": "When the compiler shares equal subformulas and sizes result queues it relies on its record of which expressions use which. The record names every user, whatever passes constructed, replaced or merged expressions before; so merging leaves no use of a merged expression behind and every queue is at least as long as its readers need.", "quantifier": "for every program graph (any size and sharing), every sequence of constructions and replacements, every result of equality saturation that is put back", "why_tests_cant": "graphs, orders of replacement and results are unbounded, and a lost user shows only as a wrong verdict on particular traces", "anchors": ["compiler/c2po/cpt.py:Expression", "compiler/c2po/cse.py", "compiler/c2po/scq.py", "compiler/c2po/parse_egglog_output.py:parse", "compiler/c2po/egraph.py:build_expr_", "compiler/c2po/eqsat.py:optimize_eqsat"]}
{"id": "C56", "title": "Extraction by integer programming gives the least equivalent formula", "statement": "With `optimize_eqsat --extraction-method ilp`, whatever optimum the solver returns, the compiler builds a formula from it without failing; the formula is equivalent to the specification, has legal intervals, reads no other inputs, and contains no ->, G or F when extended operators are off. The solver finds a solution for every formula, and the formula chosen needs the least queue memory among those found equivalent.", "quantifier": "for every formula, every e-graph egglog reaches with the rules (any size, any cycles), every solution of the integer program", "why_tests_cant": "e-graphs and solutions are unbounded; cyclic classes make non-termination of the extraction possible, and which optimum is returned is up to the solver", "anchors": ["compiler/c2po/egraph.py:EGraph", "compiler/c2po/egraph.py:build_gurobi_model_", "compiler/c2po/egraph.py:build_repr_map_", "compiler/c2po/egraph.py:build_expr_", "compiler/c2po/eqsat.py:optimize_eqsat", "compiler/c2po/scq.py"]}
{"id": "C57", "title": "Naming a subformula does not change its verdicts under the default options", "statement": "A specification file compiled with the default options gets true and timely verdicts: giving a name to a subformula (a definition, or the label of another specification) and using the name means and reports the same as writing the subformula out.", "quantifier": "for every specification file over Boolean inputs (any number and nesting of definitions, labels and specifications), every trace file", "why_tests_cant": "files and traces are unbounded; queues that are too short for a named subformula only show as wrong verdicts on particular traces", "anchors": ["compiler/c2po/cpt.py:Operator", "compiler/c2po/cpt.py:Expression.replace", "compiler/c2po/desugar.py:expand_definitions", "compiler/c2po/rewrite.py:optimize_rewrite_rules", "compiler/c2po/transform.py:remove_extended_operators", "compiler/c2po/scq.py:compute_scq_sizes", "compiler/c2po/main.py:compile"]}
{"id": "C58", "title": "Equivalence checking with symbolic interval bounds answers for every value of the bounds", "statement": "check_equiv on a .equiv file prints equiv only if all formulas of the file are equivalent, and not-equiv only if two adjacent ones are not, where interval bounds written with b0, b1, ... and M range over all natural numbers that meet the c: constraints and make every interval start at 0 or later and end no earlier than it starts.", "quantifier": "for every file (any number of constraints, formulas and bounds, any nesting of operators and of bound expressions), every value of the bounds, every trace", "why_tests_cant": "formulas, bounds and traces are unbounded: a test fixes the formulas and the solver's answer, and cannot tell whether the query asked speaks about all values of the bounds", "anchors": ["compiler/c2po/sat.py:check_equiv", "compiler/c2po/sat.py:to_smt_equiv", "compiler/c2po/sat.py:to_uflia_smtlib2", "compiler/c2po/parse_equiv.py:MLTLEquivParser", "compiler/c2po/cpt.py:SymbolicTemporalOperator", "compiler/docs/user/equiv.md"]}
{"id": "C59", "title": "Satisfiability answers about integer inputs hold for the monitor", "statement": "If --check-sat reports a specification over integer inputs (+, -, *, /, %, comparisons) unsatisfiable, the monitor never reports it true, and if it reports it satisfiable, some integer inputs make the monitor report it true.", "quantifier": "for every specification (any nesting of arithmetic, comparisons, logical and future-time operators), every sequence of integer inputs, every time", "why_tests_cant": "inputs and formulas are unbounded: a test fixes a formula and the answer of one solver, and the values at which exact integers and 32-bit integers part are few among 2^32 per input and step", "anchors": ["compiler/c2po/sat.py:to_uflia_smtlib2", "compiler/c2po/sat.py:check_sat", "monitors/c/src/engines/booleanizer.c:r2u2_bz_update"]}
{"id": "C60", "title": "Equivalence files are read as written", "statement": "parse_equiv accepts exactly the texts of the .equiv format (constraint lines, then one formula per line, with blanks and comments) and reads them with the precedences of C, so the answer check_equiv prints is about the constraints and formulas in the text.", "quantifier": "for every text (any number of lines, any nesting, any spacing) and every file of constraints and formulas", "why_tests_cant": "there are unboundedly many texts; a test reads one and compares one answer, which a misread formula may share", "anchors": ["compiler/c2po/parse_equiv.py:MLTLEquivLexer", "compiler/c2po/parse_equiv.py:MLTLEquivParser", "compiler/c2po/parse_equiv.py:parse_equiv", "compiler/docs/user/equiv.md"]}
{"id": "C61", "title": "The satisfiability command is right about each specification and about the program", "statement": "check_sat says of every specification, in order, whether some trace meets it, and of a program of several specifications whether one trace meets them all; success without a warning means that one trace meets all, and the command succeeds whenever every specification can be encoded and the solver answers.", "quantifier": "for every list of specifications (any number, any nesting and interval sizes), every mix of contracts, and every solver whose sat and unsat are right, including solvers that fail, run out of time or answer unknown on any query", "why_tests_cant": "a test runs one program with one solver; satisfiability of all specifications together is a statement about all traces, and the solver's failures cannot be enumerated", "anchors": ["compiler/c2po/sat.py:check_sat", "compiler/c2po/sat.py:run_smt_solver", "compiler/c2po/sat.py:check_sat_result", "compiler/c2po/sat.py:to_smt"]}
{"id": "C62", "title": "Written queries are found under their formulas' names", "statement": "write_smt_encoding without a formula writes the query of every formula of the program to the location, one file per formula if there are several or the location is a directory, and with a formula only that one; it succeeds exactly if the queries asked for exist, and other files are left alone.", "quantifier": "for every list of future-time and past-time specifications (any number, contracts among them), every choice of formula, every content of the location (nothing, a file, a directory with any files) and every encoding", "why_tests_cant": "a test writes one program to one location; an omitted or overwritten file shows only for particular mixes of specifications and previous contents", "anchors": ["compiler/c2po/sat.py:write_smt_encoding", "compiler/c2po/cpt.py:Program.get_spec", "compiler/docs/user/commands.md"]}
{"id": "C63", "title": "Statistics are printed as the format string says", "statement": "print_stats prints the format string with every placeholder (%F, %scq, ...) replaced by the statistic it names, every \\n, \\t and \\\" by its character, and everything else unchanged.", "quantifier": "for every format string (any number and order of placeholders, escapes and plain text) and every value of the 35 statistics", "why_tests_cant": "replacements are made one after the other over the whole text, so one may create or destroy an occurrence of another; which combinations do depends on all pairs of placeholders and on values such as file names", "anchors": ["compiler/c2po/stats.py:Stats.format", "compiler/c2po/stats.py:STATS_FORMAT_MAP", "compiler/c2po/command.py:print_stats"]}
{"id": "C64", "title": "pop brings back the state of the matching push", "statement": "Whatever commands and files come between a push and its pop, the console is afterwards in the state it was in: same program, same symbols and options, same statistics, same instructions, same states below. Reading a file starts from empty tables of names.", "quantifier": "for every console state, every sequence of commands, file readings and nested push/pop pairs in between, and every effect these have", "why_tests_cant": "a state has over sixty attributes copied one by one by hand-written code, and commands may change objects shared between the live and the saved state; a test looks at a few attributes after a few commands", "anchors": ["compiler/c2po/main.py:push_state", "compiler/c2po/main.py:pop_state", "compiler/c2po/cpt.py:Context.deepcopy", "compiler/c2po/cpt.py:Context.clear", "compiler/c2po/stats.py:Stats.deepcopy"]}
