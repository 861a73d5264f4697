# Formal model of Kissat (arminbiere/kissat) in Rocq

This file says what is modelled, how each property of `properties.jsonl` is proved,
and what the results rest on.  The plan was written before the proofs; the file is kept up to date.

## Method

* One Coq file per C module (`rocq/theories/<Area>.v`): total, computable Gallina functions, one per C
  function, each with a comment citing file and lines.  C arrays indexed by variable or literal are total functions
  `nat -> A` with point updates, C stacks are lists, wrap-around and overflow checks are written out.
  Undefined behaviour (division by zero, reading past the end, failed assertion, fatal abort) is a
  separate outcome (`Undef`, `Abort`), and so is running out of fuel (`Fuel`), never a default value.
* Heuristics (which variable to decide, when to restart, which clauses are reduced) are oracle arguments: the
  theorems quantify over all oracles, so they hold for every heuristic, in particular for Kissat's.
* A small specification (`Spec*.v`) defines satisfaction of CNF formulas, reverse unit propagation, printers,
  the Luby sequence, permutations and orders, without using the model.
* `Properties*.v` hold the theorem statements with the last steps of their proofs, `Print Assumptions` beneath, and
  next to each an `Example` instantiating the hypotheses with a concrete case.
* If the English property is false of the faithful model, the file proves a `..._refuted` theorem with a concrete
  counterexample, and the part that does hold as `..._partial`.

## Properties: what is modelled and how it is proved

| id | modelled | proof idea | status |
|----|----------|-----------|--------|
| C01 | search.c, propsearch.c/proplit.h, decide.c, analyze.c, learn.c, backtrack.c, restart.c, reduce.c, internal.c(value) | watch invariant over the state machine, all assigned + propagated => every clause true | partial |
| C02 | same | every data-base clause is implied by the input; level-0 conflict => empty clause implied | partial |
| C03 | same + proof.c events | each learned clause is RUP: unit derivations along the trail | partial |
| C04 | internal.c:kissat_value, extend.c | case analysis; idempotence of extension flag | partial |
| C05 | extend.c, weaken.c | induction over the extension stack | proved |
| C06 | resolve.c, eliminate.c, weaken.c | resolution completeness for one variable (Davis-Putnam), with gate restriction | proved |
| C07 | parse.c, a DIMACS printer as spec | induction over clauses / digits | partial |
| C08 | parse.c | invariants of the parser loop | proved |
| C09 | parse.c | simulation between strictness modes | proved |
| C10 | parse.c next/fill_buffer | refinement of chunked reader to list reader | proved |
| C11 | parse.c line numbers | expected false: `return` without storing `lineno`; refuted + partial | partial |
| C12 | witness.c, application.c | line-width invariant; round trip; expected false in relaxed mode (max_var from header) | partial |
| C13 | proof.c line printers | decode (encode x) = x | proved |
| C14 | proof.c line printers | decode (encode x) = x | proved |
| C15 | proof.c buffer | refinement to append | proved |
| C16 | options.c/options.h full table | sortedness by computation + binary search invariant | proved |
| C17 | options.c, config.c | invariant over operation sequences | proved |
| C18 | options.c:kissat_parse_option_value | denotational value of strings; expected false: "0^2" divides by zero | partial |
| C19 | format.c, options.c | composition | partial |
| C20 | options.c:kissat_options_parse_arg | case analysis | proved |
| C21 | application.c:parse_options | state machine over argv; expected false for --time | partial |
| C22 | terminate.h, internal.c, search.c | expected false for the callback (never called) | partial |
| C23 | search.c, internal.c | loop invariant on counters | partial |
| C24 | heap.c, inlineheap.h | heap order invariant over operation sequences | proved |
| C25 | inlinequeue.h, queue.c, decide.c | refinement of linked list to list | proved |
| C26 | fifo.h | refinement to list | proved |
| C27 | vector.c, inlinevector.h | separation invariant over one array | proved |
| C28 | stack.h, stack.c | refinement to list + capacity invariant | proved |
| C29 | arena.c, clause.h | layout invariant | proved |
| C30 | sort.h | quicksort/insertion sort over arrays with bounds-checked access | proved |
| C31 | rank.h | stable counting-sort passes | proved |
| C32 | reluctant.c | invariant relating (u,v) to Luby | proved |
| C33 | random.h | arithmetic mod 2^64, explicit inverse | proved |
| C34 | import.c, inline.h | injectivity invariant | partial |
| C35 | internal.c:kissat_add | model-set invariant | proved |
| C36 | proplit.h | watch invariant | partial |
| C37 | deduce.c, analyze.c, learn.c | resolution invariant | proved |
| C38 | minimize.c, shrink.c | implication invariant | proved |
| C39 | backtrack.c | list reasoning | proved |
| C40 | reduce.c, collect.c | model-set preservation | proved |
| C41 | compact.c | renaming is injective | proved |
| C42 | substitute.c | components of implications | proved |
| C43 | krite.c | expected false: root units and the empty clause are not written | partial |
| C44 | format.c | expected false for times below half a second (stale buffer) | partial |
| C45 | smooth.c | real arithmetic (no floating point rounding) | partial |
| C46 | internal.c:kissat_add, kissat_reserve, import.c, flags.c | totality of the calls: every assertion on the path holds | partial |
| C47 | application.c:run_application, main | case analysis over all runs | partial |
| C48 | application.c:parse_options | state machine over argv; expected false for -o | partial |
| C49 | Lucky.v: lucky.c on the solver state of the search (decisions, propagation, failed literal analysis, backtracking) | invariant of the search kept by each attempt, decisions ordered on the trail; a constant model from the check over all clauses; total (wp) | proved |
| C50 | Api.v, Lucky.v: the counter of searches and the requirements of kissat_add and kissat_solve | case analysis; refutation by a concrete run | partial |
| C51 | composition of Application.v, Parse.v, Api.v, Lucky.v, Search.v and Witness.v | C47 + C07 + C01/C02 + C12: the world of the main function is described by the other models | partial |
| C52 | Transitive.v (transitive.c, probe.c), Search.v: the breadth first search over binary clauses, the removal of clauses, failed literals, probing rounds | the reachability loop is proved once for every property that binary clauses propagate, and used for derivability, truth and chains; every removal keeps the invariants of the search | proved |
| C53 | Backbone.v (backbone.c), Probe.v (probe.c): assignment, propagation and conflict analysis over binary clauses, units learned, rounds | an invariant of the trail kept over candidates (closed under binary implication, units refuted); the first unique implication point implies both literals of the conflict; each unit is RUP for the clauses held | proved |
| C54 | Factor.v (factor.c, watch.c 110-141, dense.c 93-104, import.c 82-100): entering dense mode, quotients, fresh variables, replacing clauses | chains of aligned quotients (the i-th clauses of all factors have the same rest); one factorization removes all products and adds dividers and quotients; the dividers and quotients have the RAT property on the fresh variable; induction over the schedule | partial |
| C55 | Application.v (application.c 372-624, 768-877) | effect of one argument on the four settings by cases over the order of tests; induction over the arguments | proved |
| C56 | Forward.v (forward.c, with propagation and flushing from Eliminate.v): duplicated binary clauses, hyper unary resolution, candidates, checking and strengthening a clause, connecting it, the flags for the next time | a relation between states (same models, values only grow, clauses only shrink, unconnected clauses unchanged, added lines implied) which holds for each elementary step and composes; a candidate is never connected before it is checked, so it cannot subsume itself; induction over watches, literals and candidates; for the proof a second invariant: units, binary and large clauses held are a sub-multiset of the clauses of the checker, each added line is RUP by one or two clauses held | proved |
| C57 | Files.v (file.c, kissat_has_suffix of utilities.c): the system calls are arguments; SpecFiles.v has formats, their first bytes, programs and the words of a command | induction over the suffix table, over the directories of PATH and over strings; each suffix determines one format; the words by splitting at blanks | partial |
| C58 | Signals.v: handle.c and main.c as sequences of single accesses, with a stack of handlers, blocked and pending signals; the application is any number of steps which do not access these variables | an invariant over all schedules (SignalsFacts.v, SignalsRun.v): which part of its handler each frame has executed, what it may rely on, and that a signal caught has a frame which will raise it again; runs end since each step decreases a weight once the first signal is noted (SignalsEnd.v) | partial |

### Results and what is missing

The theorems are in `Properties*.v`; a name ending in `_partial` proves a part of the property, `_refuted` shows by a
concrete run of the model that the property as stated fails.

* **C01** Satisfiable answers are models (partial). For lucky phases and the CDCL search with restarts, reductions, rephasing, backbone extraction, transitive reduction of binary clauses and every decision order; preprocessing and the other inprocessing techniques (vivification, substitution, sweeping, elimination, compaction) are switched off in this loop (substitution, elimination and compaction are modelled separately). Theorems: `C01_models_partial`.
* **C02** Unsatisfiable answers are correct (partial). For lucky phases and the CDCL search with restarts, reductions, rephasing, backbone extraction, transitive reduction of binary clauses and every decision order; preprocessing and the other inprocessing techniques (vivification, substitution, sweeping, elimination, compaction) are switched off in this loop (substitution, elimination and compaction are modelled separately). A conflict met in kissat_backtrack_propagate_and_flush_trail is only asserted away by the code; it is shown to occur only for unsatisfiable formulas. Theorems: `C02_unsatisfiable_partial`, `C02_outcomes_partial`.
* **C03** Every lemma in the proof is checkable (partial). For lucky phases and the CDCL search with restarts, reductions, rephasing, backbone extraction, transitive reduction of binary clauses and every decision order; preprocessing and the other inprocessing techniques (vivification, substitution, sweeping, elimination, compaction) are switched off in this loop (substitution, elimination and compaction are modelled separately). The whole proof is accepted by a RUP checker, including original clause strengthening, on-the-fly strengthening and deletions. C03_literals_partial: the proof only uses variables of the caller. Theorems: `C03_proof_partial`, `C03_literals_partial`.
* **C04** kissat_value is a consistent partial assignment (partial). For lucky phases and the CDCL search with restarts, reductions, rephasing, backbone extraction, transitive reduction of binary clauses and every decision order; preprocessing and the other inprocessing techniques (vivification, substitution, sweeping, elimination, compaction) are switched off in this loop (substitution, elimination and compaction are modelled separately). Eliminated variables (kissat_extend) are not modelled; unmentioned variables are 0 with tumbling (the default). Theorems: `C04_values_partial`.
* **C05** Model reconstruction (proved). Model of kissat_extend, the lazy extension in kissat_value and weaken.c. The steps of simplification are an arbitrary sequence of implied replacements and of removals with witnesses; all answers of kissat_value, in any order, come from one valuation satisfying the constraint before simplification and the simplified one. Theorems: `C05_reconstruction`.
* **C06** Variable elimination preserves satisfiability (proved). For every formula with clauses of at least two literals, every sequence of candidates and every setting of the options; gates found by the code (equivalences, and, if-then-else) are proved to define the pivot, definitions found by the embedded solver kitten are an oracle assumed to return definitions (it can be switched off). Claims are about runs of the model that return (no failed assertion); composed with C05 down to the values reported by the interface. The theorems C06_rounds_* are about any number of rounds, each with forward subsumption (or without), flushing and connecting of large clauses, propagation, elimination and garbage collection (where clauses that are left keep their references). Which variables have the flag subsume and when limits stop a round are arguments. Theorems: `C06_elimination_is_implied`, `C06_satisfiability`, `C06_eliminated_variables_vanish`, `C06_models_are_extended`, `C06_rounds_are_implied`, `C06_rounds_satisfiability`, `C06_rounds_eliminated_variables_vanish`, `C06_rounds_models_are_extended`.
* **C07** DIMACS round trip (partial). Exact characterisation of accepted texts and round trip proved for all builds without embedded options (the default); refuted for builds configured with --embedded (debugging builds), where a comment 'c -' swallows the next line. Theorems: `C07_accepts_exactly_the_format`, `C07_round_trip`, `C07_format_unambiguous`, `C07_embedded_builds_refuted`.
* **C08** DIMACS acceptance implies well-formedness (proved). Definedness for all byte sequences, modes and builds; well-formedness for builds without embedded options (the default). Theorems: `C08_parsing_is_defined`, `C08_accepted_files_are_well_formed`.
* **C09** Strictness is monotone (proved). Builds without embedded options (the default). Theorems: `C09_strictness_monotone`.
* **C10** Parsing does not depend on read chunking (proved). All builds, all splittings. Theorems: `C10_chunking_is_irrelevant`.
* **C11** Parse errors carry the right line (partial). Refuted as stated; exact description of the reported line for every error. Theorems: `C11_line_refuted`, `C11_line_partial`.
* **C12** Printed witness is complete and well formed (partial). Layout, order, completeness up to the header's variable count proved for every assignment; that the printed literals satisfy all clauses is proved for normal and pedantic parsing on the model of C01 (C12_satisfies_partial) and refuted for relaxed parsing (clauses may use variables above the header). Theorems: `C12_witness_partial`, `C12_relaxed_refuted`, `C12_satisfies_partial`.
* **C13** Binary proof encoding is uniquely decodable (proved). All lists of steps, all literals up to 2^30-1, all write failures. Theorems: `C13_binary_proofs_decode`.
* **C14** ASCII proof encoding is uniquely decodable (proved). All lists of steps, all literals up to 2^30-1, all write failures. Theorems: `C14_textual_proofs_decode`.
* **C15** Proof buffering loses nothing (proved). All buffer states, with and without flushing, failing writes abort. Theorems: `C15_buffering`, `C15_files_concatenate`.
* **C16** Option lookup (proved). All builds, all names. Theorems: `C16_option_lookup`.
* **C17** Option values stay in range (proved). All sequences of set calls, configurations and long options, all builds. Theorems: `C17_option_values_in_range`, `C17_set_option_effect`, `C17_unknown_option_ignored`, `C17_configurations`.
* **C18** Option value syntax (partial). Exact characterisation of accepted strings and of undefined behaviour; the claim that no undefined operation is executed is refuted ('0^2' divides by zero). Theorems: `C18_option_value_exact`, `C18_option_value_defined_partial`, `C18_no_undefined_operation_refuted`.
* **C19** Printed option values parse back (partial). Holds for all ints but INT_MAX/INT_MIN (refuted there, printed symbolically); holds for all defaults in the table. Theorems: `C19_printed_value_parses_back_partial`, `C19_extreme_values_refuted`, `C19_printed_defaults_parse_back`.
* **C20** Long option argument parsing (proved). Exact characterisation; the only undefined behaviour is the division by zero of C18. Theorems: `C20_long_option_exact`, `C20_long_option_total`.
* **C21** Resource limits and duplicate limit options (partial). Model of parse_options for the default build. Conflict and decision limits: proved, including that the last option given decides, that they are refused twice and that they take effect on the solver. Time limit: given twice it is accepted (C21_time_refuted), single use is proved (C21_time_partial). Theorems: `C21_conflicts`, `C21_decisions`, `C21_twice`, `C21_takes_effect`, `C21_time_refuted`, `C21_time_partial`.
* **C22** Termination requests (partial). For the search loop without simplification: after kissat_terminate (before or during solving, at any time) no decision is made and no task started, and solving returns after a number of iterations linear in the number of variables, with a correct answer or 0. The callback set with kissat_set_terminate is never called by the code (C22_callback_refuted). Polling inside the simplification procedures is not modelled. Theorems: `C22_obeyed_partial`, `C22_stops_partial`, `C22_before_partial`, `C22_callback_refuted`.
* **C23** Limits (partial). For the search loop without simplification (lucky phases, preprocessing, probing and elimination are switched off): proved for every formula, every setting of the limits, all heuristic choices and asynchronous requests. Missing: decisions inside the procedures switched off. Theorems: `C23_decisions_partial`, `C23_number_of_decisions_partial`, `C23_unknown_partial`, `C23_answers_partial`, `C23_correct_partial`, `C23_unaffected_partial`, `C23_unreached_partial`.
* **C24** Score heap is a priority queue (proved). All histories, any total preorder of scores; the double comparison is a total preorder on non-NaN scores. Theorems: `C24_priority_queue`.
* **C25** Decision queue (proved). All histories with fewer than 2^31 variables, including reassignment of stamps when they overflow and switching of modes. Theorems: `C25_queue`, `C25_decision`.
* **C26** FIFO (proved). All interleavings and capacities. Theorems: `C26_fifo`, `C26_order`.
* **C27** Watch vectors never interfere (proved). Proved for every history of operations on the vectors, every placement of the reallocated block and every number of vectors, for the pointer variant of the vectors (not COMPACT). A single vector of 2^47 elements is excluded, and exhaustion of the 2^48 addressable elements ends the program. Theorems: `C27_vectors`, `C27_no_exhaustion`, `C27_free_space`.
* **C28** Growing stacks (proved). All histories and element sizes; allocation of memory is assumed to succeed. Theorems: `C28_stacks`, `C28_shrinking`.
* **C29** Clause arena addressing (proved). All histories, both ward sizes. In debug builds an arena that is exactly full fails an assertion instead of the fatal message; both refuse the allocation. Theorems: `C29_arena`.
* **C30** Sorting (proved). All inputs and all strict weak orders. Theorems: `C30_sort`.
* **C31** Radix sorting (proved). All lists and all unsigned ranks; the comparison-based alternative is C30. Theorems: `C31_radix`, `C31_permutation`.
* **C32** Reluctant doubling is Luby (proved). All periods and limits allowed by the options; unlimited case as long as 64 bit suffice. With a limit the sequence restarts when the limit would be exceeded. Theorems: `C32_reluctant_doubling_is_luby`.
* **C33** Pseudo random numbers (proved). All states and all 32-bit ranges; double rounding modelled exactly. Theorems: `C33_picks_in_range`, `C33_state_map_is_bijective`.
* **C34** External and internal literals correspond (partial). Compaction and fresh extension literals are missing. Theorems: `C34_literals_partial`.
* **C35** Adding clauses preserves the formula (proved). All sequences of kissat_add and kissat_reserve, with and without tumbling. Theorems: `C35_adding`.
* **C36** Unit propagation is sound and complete (partial). Every state of the search, for all schedules. Soundness, conflicts and completeness for falsified clauses are proved on every level, completeness for unit clauses on the root level. C36_complete_refuted: above the root level completeness for unit clauses fails, because reducing clauses above the root level rewatches satisfied clauses. Propagation in the inprocessing engines (dense, probing, beyond conflicts) is not modelled. Theorems: `C36_propagation_partial`, `C36_complete_refuted`.
* **C37** Learned clauses are implied and asserting (proved). Every conflict analyzed in the search, including those found by on-the-fly strengthening, for all schedules and options of the model. Theorems: `C37_deduced`, `C37_learned`.
* **C38** Clause minimization and shrinking are sound (proved). Every clause deduced in the search, all depth limits and shrinking modes; minimization and shrinking are composed as in kissat_analyze. Theorems: `C38_minimized`.
* **C39** Backtracking restores exactly the lower levels (proved). Every state of the search after propagation, with or without conflict, and every lower level. Theorems: `C39_backtracking`.
* **C40** Reduction never deletes needed clauses (proved). Every reduction in the search and every ranking of the clauses. Garbage collection is the sparse collector; the dense one used in variable elimination is not modelled. Theorems: `C40_equivalent`, `C40_reduction`.
* **C41** Compaction keeps the meaning of variables (proved). For every state with the invariant cwf (variables, watches, clauses, units, trail and queue fit together), which the collection is proved to restore. That the search establishes cwf is not proved: the search of C01-C04 runs without compaction. Saved phases, scores and large reasons are left out of the state. Theorems: `C41_invariant`, `C41_values`, `C41_clauses`, `C41_models`, `C41_dense`, `C41_search_state`.
* **C42** Equivalent literal substitution (proved). For every formula with clauses of at least two literals, every set of learned clauses implied by it, and every number of calls with any options, mode and rounds: models stay models, satisfiability is preserved in both directions (also if learned clauses are forgotten afterwards), models of what is left are extended to models of the formula down to the values reported by the interface, literals equivalent to a smaller one disappear for good, representatives are the smallest equivalent literals, and a literal equivalent to its negation gives the empty clause. Claims are about runs of the model that return (no failed assertion). The start state is that after connecting all clauses; the bound on effort is an argument. Theorems: `C42_substitution_is_implied`, `C42_satisfiability`, `C42_contradictory_equivalence`, `C42_substituted_variables_vanish`, `C42_models_are_extended`, `C42_smallest_representatives`.
* **C43** Simplified formula written with -o (partial). False as stated (C43_unsatisfiable_refuted, C43_unknown_refuted): the file does not contain root-level units or the empty clause, so it can be satisfiable although the input is not. Proved instead, unless the answer is 20: the file together with the root-level units has exactly the models of the input; every model of the input satisfies the file; after the answer 10 both are satisfiable and the reported values satisfy the file; without units they are equivalent; the parser accepts the file and gives back its clauses. The model has no inprocessing (elimination, substitution), and the header's clause count is modelled as the number of clauses written. Theorems: `C43_units_partial`, `C43_equivalent_partial`, `C43_satisfiable_partial`, `C43_implied_partial`, `C43_unsatisfiable_refuted`, `C43_unknown_refuted`, `C43_readable_partial`.
* **C44** Human readable numbers (partial). Counts, ordinals, buffer safety proved; times that round to zero and byte counts above 2^64-2^29 refuted. Theorems: `C44_count`, `C44_count_unambiguous`, `C44_time_partial`, `C44_short_time_refuted`, `C44_bytes_partial`, `C44_huge_bytes_refuted`, `C44_ordinal`, `C44_strings_survive`.
* **C45** Moving averages (partial). The update of smooth.c, generic in the arithmetic. For exact rational arithmetic proved for all sequences of values and windows; for binary64 as used by the code refuted by rounding (window 33, constant 7). Theorems: `C45_between_partial`, `C45_constant_partial`, `C45_between_refuted`, `C45_constant_refuted`.
* **C46** Legal calls never fail (partial). Proved for kissat_add; refuted for kissat_reserve without tumbling after a unit clause. Theorems: `C46_adding_partial`, `C46_reserve_refuted`.
* **C47** Exit code and status line agree (partial). Model of run_application and main for the default build: proved whenever the file of -o is not requested or can be written; refuted otherwise (exit code 0 after the status line was printed). Theorems: `C47_exit_code_partial`, `C47_exit_code_refuted`.
* **C48** Files given are not overwritten by accident (partial). Proved for the proof path; the path of -o is not checked at all (C48_output_refuted). Theorems: `C48_paths`, `C48_force`, `C48_output_refuted`.
* **C49** Lucky phases finish and answer correctly (proved). Model of lucky.c with its failed literal analysis; needs no fuel. Termination requests are not polled in lucky.c. Theorems: `C49_finish`, `C49_constant`.
* **C50** Incremental use is rejected (partial). Proved once a search was started (C50_rejected_partial). False in general (C50_refuted): only the search itself is counted, so that after an answer of lucky phases, of a formula refuted while it was added, or after an immediate limit, further calls are accepted; after lucky phases the second kissat_solve violates an assertion. Theorems: `C50_rejected_partial`, `C50_refuted`.
* **C51** The printed result is right for the input file (partial). Composition of the models of main function, option parsing, parser, interface, lucky phases, search and witness printing, from the bytes of the file to the lines printed. Missing as in C01: preprocessing and inprocessing; witness lines are covered unless parsing is relaxed (see C12). Theorems: `C51_program_partial`.
* **C52** Transitive reduction keeps what follows from each literal (proved). For probing with backbone extraction and transitive reduction, as part of the search loop (all theorems about the search cover it). The limit on ticks is an argument: the reduction may stop after any candidate. Theorems: `C52_total`, `C52_equivalent`, `C52_implications`, `C52_clauses`.
* **C53** Backbone extraction finds only implied literals, and finds failed ones (proved). Which literals are candidates, in which order, and when the limits stop a round is left open: the theorems hold for every list of candidates. Candidates tried after others may be skipped because they have a value already; then they are not tested in that round, as in the code. Theorems: `C53_total`, `C53_backbone`, `C53_clauses`, `C53_found`.
* **C54** Bounded variable addition keeps the formula equivalent and makes it smaller (partial). The factors and the large clauses considered are arguments, so that the theorems hold for every heuristic choice. C54_proof is about the whole proof, from the formula on. C54_limit_refuted: if the largest external variable 2^30-1 is used itself, an assertion fails instead (and without assertions variable 2^30 is created). Resuming sparse mode after factoring is not modelled. Theorems: `C54_safe`, `C54_total`, `C54_fresh`, `C54_equivalent`, `C54_smaller`, `C54_proof`, `C54_limit_refuted`.
* **C55** Flags on the command line select what they say (proved). Complete for the argument parser; what the answer, the file system and the values are is arbitrary. Theorems: `C55_flags`, `C55_witness`, `C55_printed`.
* **C56** Forward subsumption keeps the formula equivalent (proved). The step and termination limits are the argument budget, the flags subsume are arbitrary. The theorems are about runs which return. Theorems: `C56_equivalent`, `C56_contained`, `C56_proof_implied`, `C56_proof`, `C56_proof_holds_clauses`.
* **C57** The files named are the files read and written, compressed or not (partial). C57_read, C57_write, C57_same_format, C57_close: which file or program is opened and closed, for all paths and answers of the system, with no overflow. C57_command_partial: the words of the command, for paths with letters, digits and a few other characters; for a path with a blank (or another character with a meaning for the shell) the statement is false (C57_command_refuted). C57_writable: exactly which paths are accepted; a directory within a directory is accepted and new files in the root directory are not (C57_directory_refuted, C57_root_refuted). C57_fallback_refuted: without the program the compressed bytes are parsed. Theorems: `C57_read`, `C57_fallback_refuted`, `C57_write`, `C57_same_format`, `C57_command_partial`, `C57_command_refuted`, `C57_close`, `C57_writable`, `C57_directory_refuted`, `C57_root_refuted`.
* **C58** Signals end the process properly at any moment (partial). C58_once, C58_cause, C58_ends, C58_returned: for all schedules. C58_finish: without alarms every schedule with one of the five signals ends with the process killed by one of them. C58_moment: the first of the five signals ends the process, at every step; C58_solving and C58_alarm: the first signal which arrives while solving, at any step; C58_quiet: no signal. C58_no_crash: no call of a null pointer if there is no alarm. With alarms there is one window, within kissat_reset_alarm between handle.c 84 and 85 (C58_crash_partial), where it does happen (C58_crash_refuted). Theorems: `C58_once`, `C58_cause`, `C58_ends`, `C58_solving`, `C58_moment`, `C58_alarm`, `C58_quiet`, `C58_returned`, `C58_no_crash`, `C58_crash_partial`, `C58_crash_refuted`, `C58_finish`.

## Findings

Where the code does not do what the property says, or only by an assertion (all are visible in the model, those marked
with a theorem are proved):

* **Reduction above the root level loses an implication** (`C36_complete_refuted`): with chronological backtracking, reducing
  the clauses above the root level rewatches satisfied clauses, and after backtracking a unit clause may not be
  propagated. A conflict met when flushing the trail at the root (backtrack.c 163-177) is only asserted away; in the model this
  is the outcome `RIgnored`. It can only occur for unsatisfiable formulas, which the theorems state.
* `--option=0^2` and other strings with base zero and exponent of at least two divide by zero (`C18`).
* INT_MAX and INT_MIN are printed symbolically by the option printer and not as numbers (`C19`).
* Times between 0 and 0.5 seconds give the previously formatted string, byte counts of at least 2^64-2^29 give "0 GB" (`C44`).
* In builds with embedded options the comment `c -` swallows the next line (`C07`).
* Parse errors returned without storing the line number report line 1 (`C11`).
* With relaxed parsing, clauses may use variables above the header's number; the witness omits them (`C12`).
* The callback of `kissat_set_terminate` is never called (`C22_callback_refuted`).
* `--time` can be given twice, because the variable that remembers it is never set (`C21_time_refuted`).
* After a failure to open the file of `-o` the program exits with 0 although the answer was printed (`C47`), and `-o` may name the
  input file (`C48_output_refuted`).
* The file of `-o` does not contain root-level units nor the empty clause, so it can be satisfiable although the input is
  not (`C43_unsatisfiable_refuted`, `C43_unknown_refuted`).
* Rounding moves the moving average of a constant above the constant (`C45`, binary64, window 33).
* An answer can be found although the limit on conflicts has been reached (`limit_and_answer` in PropertiesLimits.v).
* `kissat_reserve` after a unit clause activates a fixed variable if tumbling is off (`C46_reserve_refuted`).
* With a limit on the period, reluctant doubling starts its sequence again when the limit is exceeded (`C32`).
* In debug builds, an arena that is exactly full and a vector of 2^47 elements fail an assertion before the fatal message.
* `kissat_reserve(n)` with n below the number of variables fails an assertion in debug builds; `kissat_value(0)` is let through by
  `kissat_require` in release builds; `kissat_solve` only checks the internal clause when it requires complete clauses.
* `compact_queue` (compact.c 140-151) compares with the search index of the queue after it may have been replaced by its new index,
  so that it can be mapped twice (`ex_search_mapped_twice`). This is harmless: the index only moves towards the end of the queue, and no
  unassigned variable is missed (`C41_search_state`).
* Only the search itself is counted as use of the solver (search.c 46-48): after an answer by lucky phases, for a formula refuted
  while it was added, or after an immediate limit, `kissat_add` and `kissat_solve` are not rejected; after lucky phases the second
  `kissat_solve` violates an assertion (`C50_refuted`).
* `kissat_fresh_literal` (import.c 82-100) compares the size of the stack of external variables, which has an unused entry for zero, with the
  largest variable: if variable 2^30-1 is in use, an assertion fails, and without assertions the variable 2^30 beyond the limit is created
  (`C54_limit_refuted`). In factor.c 350 and 422 `next > initial` lets the first new literal pass, which is harmless.
* file.c 243-248 and 281-285 give the path to the shell without quotes: a compressed file with a blank in its name is read as two other
  files, and other characters can run other commands (`C57_command_refuted`). Without the program installed the compressed bytes are parsed
  as DIMACS (`C57_fallback_refuted`). `kissat_file_writable` accepts a directory within a directory (line 75 misses the test of line 50)
  and rejects every new file in the root directory, since the name of its directory is empty (`C57_directory_refuted`, `C57_root_refuted`).
* C58: `kissat_reset_alarm` clears `handle_alarm` (handle.c 84) before it restores the disposition of SIGALRM (line 85). An alarm between these
  two lines calls a null pointer: `catch_alarm` copies the cleared pointer and calls it (`C58_crash_refuted`; there is no other such moment,
  `C58_crash_partial`). The flag `ignore_alarm` of main.c does not help, since it is tested in the function which is not reached.
* After enqueueing an assigned variable into an empty queue the search index of the queue stays disconnected.

## Trusted base

* The kernel of Coq 8.16.1 (and `coqchk`, which rechecks the compiled files).
* The reading of the C code: every definition of the model cites the lines it models and says where it simplifies. Nothing was
  extracted or run, so that the correspondence between the C code and the definitions is by inspection.
* `Print Assumptions` stands beneath each theorem in `Properties*.v` and prints "Closed under the global context" for all of them:
  no axioms are used, neither own ones nor those of the standard library or another library. (Flocq's definitions of binary64
  are not used; rounding is modelled on integers and rationals.)
* The specifications `Spec*.v` and the definitions in `Properties*.v` that appear in the statements.

## What is modelled

options.c, options.h, config.c; handle.c and main.c (signals); file.c (with compression, system calls as arguments), kissat_has_suffix of utilities.c; format.c; parse.c; proof.c (printing, buffering, and which lines are produced by the
search); witness.c; reluctant.c; random.h; smooth.c; application.c (options, run and exit codes); internal.c (kissat_init, add, reserve, solve,
terminate, limits, value); import.c, parts of flags.c and resize.c; trail.c, assign.c, proplit.h and propsearch.c; analyze.c, deduce.c,
minimize.c, shrink.c, learn.c; strengthen.c (on-the-fly); backtrack.c; restart.c; reduce.c; the sparse part of
collect.c; search.c (loop, limits); lucky.c; transitive.c, backbone.c and probe.c (with these two techniques); heap.h, inlineheap.h, heap.c; queue.c, inlinequeue.h, decide.c (queue mode); fifo.h; stack.h; arena.c; sort.h;
rank.h; vector.c, inlinevector.h; extend.c; weaken.c; eliminate.c, resolve.c, gates.c, equivalences.c, ands.c, ifthenelse.c, propdense.c; definition.c
(with kitten as an oracle); substitute.c, proprobe.c, watch.c (watching large clauses);
compact.c and the compacting collection of collect.c (without saved phases, scores and large reasons); krite.c; terminate.h; factor.c (without resuming sparse mode), entering dense mode; forward.c; the loop over rounds of eliminate.c with kissat_flush_large_connected and kissat_connect_irredundant_large_clauses of watch.c (the number of rounds and the candidates are arguments).

Simplifications which apply everywhere: allocation succeeds unless the property is about it; statistics, profiling, logging, and
reporting are left out; heuristic choices (decisions, phases, restarts, which clauses to reduce, when to rephase) are arguments the theorems
quantify over; machine words are mathematical integers with explicit wraps where wrap-around can be reached.

## What is not modelled

walk.c, warmup.c, phases and scores of bump.c, mode.c and classify.c (heuristics: covered by quantifying over choices where they only
choose); vivify.c, sweep.c, congruence.c, fastel.c, kitten.c; check.c; the dense
part of collect.c; the compression programs themselves, in handle.c and main.c non-default dispositions inherited from the parent, and which library functions may be used in handlers, resources.c and
print.c.

## Tests of the theorems against wrong programs

`seeded/LOG.jsonl` lists edits of the model that imitate realistic bugs, the claim each breaks, the theorems that failed to
compile, and the theorems that were tightened when an edit went unnoticed.
