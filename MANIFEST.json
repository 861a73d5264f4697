{
 "claims": [
  {
   "property": "C01",
   "status": "partial",
   "theorems": [
    "C01_models_partial"
   ],
   "note": "For lucky phases and the CDCL search with restarts, reductions, rephasing, backbone extraction, transitive reduction of binary clauses and every decision order; preprocessing and the other inprocessing techniques (vivification, substitution, sweeping, elimination, compaction) are switched off in this loop (substitution, elimination and compaction are modelled separately)."
  },
  {
   "property": "C02",
   "status": "partial",
   "theorems": [
    "C02_unsatisfiable_partial",
    "C02_outcomes_partial"
   ],
   "note": "For lucky phases and the CDCL search with restarts, reductions, rephasing, backbone extraction, transitive reduction of binary clauses and every decision order; preprocessing and the other inprocessing techniques (vivification, substitution, sweeping, elimination, compaction) are switched off in this loop (substitution, elimination and compaction are modelled separately). A conflict met in kissat_backtrack_propagate_and_flush_trail is only asserted away by the code; it is shown to occur only for unsatisfiable formulas."
  },
  {
   "property": "C03",
   "status": "partial",
   "theorems": [
    "C03_proof_partial",
    "C03_literals_partial"
   ],
   "note": "For lucky phases and the CDCL search with restarts, reductions, rephasing, backbone extraction, transitive reduction of binary clauses and every decision order; preprocessing and the other inprocessing techniques (vivification, substitution, sweeping, elimination, compaction) are switched off in this loop (substitution, elimination and compaction are modelled separately). The whole proof is accepted by a RUP checker, including original clause strengthening, on-the-fly strengthening and deletions. C03_literals_partial: the proof only uses variables of the caller."
  },
  {
   "property": "C04",
   "status": "partial",
   "theorems": [
    "C04_values_partial"
   ],
   "note": "For lucky phases and the CDCL search with restarts, reductions, rephasing, backbone extraction, transitive reduction of binary clauses and every decision order; preprocessing and the other inprocessing techniques (vivification, substitution, sweeping, elimination, compaction) are switched off in this loop (substitution, elimination and compaction are modelled separately). Eliminated variables (kissat_extend) are not modelled; unmentioned variables are 0 with tumbling (the default)."
  },
  {
   "property": "C05",
   "status": "proved",
   "theorems": [
    "C05_reconstruction"
   ],
   "note": "Model of kissat_extend, the lazy extension in kissat_value and weaken.c. The steps of simplification are an arbitrary sequence of implied replacements and of removals with witnesses; all answers of kissat_value, in any order, come from one valuation satisfying the constraint before simplification and the simplified one."
  },
  {
   "property": "C06",
   "status": "proved",
   "theorems": [
    "C06_elimination_is_implied",
    "C06_satisfiability",
    "C06_eliminated_variables_vanish",
    "C06_models_are_extended",
    "C06_rounds_are_implied",
    "C06_rounds_satisfiability",
    "C06_rounds_eliminated_variables_vanish",
    "C06_rounds_models_are_extended"
   ],
   "note": "For every formula with clauses of at least two literals, every sequence of candidates and every setting of the options; gates found by the code (equivalences, and, if-then-else) are proved to define the pivot, definitions found by the embedded solver kitten are an oracle assumed to return definitions (it can be switched off). Claims are about runs of the model that return (no failed assertion); composed with C05 down to the values reported by the interface. The theorems C06_rounds_* are about any number of rounds, each with forward subsumption (or without), flushing and connecting of large clauses, propagation, elimination and garbage collection (where clauses that are left keep their references). Which variables have the flag subsume and when limits stop a round are arguments."
  },
  {
   "property": "C07",
   "status": "partial",
   "theorems": [
    "C07_accepts_exactly_the_format",
    "C07_round_trip",
    "C07_format_unambiguous",
    "C07_embedded_builds_refuted"
   ],
   "note": "Exact characterisation of accepted texts and round trip proved for all builds without embedded options (the default); refuted for builds configured with --embedded (debugging builds), where a comment 'c -' swallows the next line."
  },
  {
   "property": "C08",
   "status": "proved",
   "theorems": [
    "C08_parsing_is_defined",
    "C08_accepted_files_are_well_formed"
   ],
   "note": "Definedness for all byte sequences, modes and builds; well-formedness for builds without embedded options (the default)."
  },
  {
   "property": "C09",
   "status": "proved",
   "theorems": [
    "C09_strictness_monotone"
   ],
   "note": "Builds without embedded options (the default)."
  },
  {
   "property": "C10",
   "status": "proved",
   "theorems": [
    "C10_chunking_is_irrelevant"
   ],
   "note": "All builds, all splittings."
  },
  {
   "property": "C11",
   "status": "partial",
   "theorems": [
    "C11_line_refuted",
    "C11_line_partial"
   ],
   "note": "Refuted as stated; exact description of the reported line for every error."
  },
  {
   "property": "C12",
   "status": "partial",
   "theorems": [
    "C12_witness_partial",
    "C12_relaxed_refuted",
    "C12_satisfies_partial"
   ],
   "note": "Layout, order, completeness up to the header's variable count proved for every assignment; that the printed literals satisfy all clauses is proved for normal and pedantic parsing on the model of C01 (C12_satisfies_partial) and refuted for relaxed parsing (clauses may use variables above the header)."
  },
  {
   "property": "C13",
   "status": "proved",
   "theorems": [
    "C13_binary_proofs_decode"
   ],
   "note": "All lists of steps, all literals up to 2^30-1, all write failures."
  },
  {
   "property": "C14",
   "status": "proved",
   "theorems": [
    "C14_textual_proofs_decode"
   ],
   "note": "All lists of steps, all literals up to 2^30-1, all write failures."
  },
  {
   "property": "C15",
   "status": "proved",
   "theorems": [
    "C15_buffering",
    "C15_files_concatenate"
   ],
   "note": "All buffer states, with and without flushing, failing writes abort."
  },
  {
   "property": "C16",
   "status": "proved",
   "theorems": [
    "C16_option_lookup"
   ],
   "note": "All builds, all names."
  },
  {
   "property": "C17",
   "status": "proved",
   "theorems": [
    "C17_option_values_in_range",
    "C17_set_option_effect",
    "C17_unknown_option_ignored",
    "C17_configurations"
   ],
   "note": "All sequences of set calls, configurations and long options, all builds."
  },
  {
   "property": "C18",
   "status": "partial",
   "theorems": [
    "C18_option_value_exact",
    "C18_option_value_defined_partial",
    "C18_no_undefined_operation_refuted"
   ],
   "note": "Exact characterisation of accepted strings and of undefined behaviour; the claim that no undefined operation is executed is refuted ('0^2' divides by zero)."
  },
  {
   "property": "C19",
   "status": "partial",
   "theorems": [
    "C19_printed_value_parses_back_partial",
    "C19_extreme_values_refuted",
    "C19_printed_defaults_parse_back"
   ],
   "note": "Holds for all ints but INT_MAX/INT_MIN (refuted there, printed symbolically); holds for all defaults in the table."
  },
  {
   "property": "C20",
   "status": "proved",
   "theorems": [
    "C20_long_option_exact",
    "C20_long_option_total"
   ],
   "note": "Exact characterisation; the only undefined behaviour is the division by zero of C18."
  },
  {
   "property": "C21",
   "status": "partial",
   "theorems": [
    "C21_conflicts",
    "C21_decisions",
    "C21_twice",
    "C21_takes_effect",
    "C21_time_refuted",
    "C21_time_partial"
   ],
   "note": "Model of parse_options for the default build. Conflict and decision limits: proved, including that the last option given decides, that they are refused twice and that they take effect on the solver. Time limit: given twice it is accepted (C21_time_refuted), single use is proved (C21_time_partial)."
  },
  {
   "property": "C22",
   "status": "partial",
   "theorems": [
    "C22_obeyed_partial",
    "C22_stops_partial",
    "C22_before_partial",
    "C22_callback_refuted"
   ],
   "note": "For the search loop without simplification: after kissat_terminate (before or during solving, at any time) no decision is made and no task started, and solving returns after a number of iterations linear in the number of variables, with a correct answer or 0. The callback set with kissat_set_terminate is never called by the code (C22_callback_refuted). Polling inside the simplification procedures is not modelled."
  },
  {
   "property": "C23",
   "status": "partial",
   "theorems": [
    "C23_decisions_partial",
    "C23_number_of_decisions_partial",
    "C23_unknown_partial",
    "C23_answers_partial",
    "C23_correct_partial",
    "C23_unaffected_partial",
    "C23_unreached_partial"
   ],
   "note": "For the search loop without simplification (lucky phases, preprocessing, probing and elimination are switched off): proved for every formula, every setting of the limits, all heuristic choices and asynchronous requests. Missing: decisions inside the procedures switched off."
  },
  {
   "property": "C24",
   "status": "proved",
   "theorems": [
    "C24_priority_queue"
   ],
   "note": "All histories, any total preorder of scores; the double comparison is a total preorder on non-NaN scores."
  },
  {
   "property": "C25",
   "status": "proved",
   "theorems": [
    "C25_queue",
    "C25_decision"
   ],
   "note": "All histories with fewer than 2^31 variables, including reassignment of stamps when they overflow and switching of modes."
  },
  {
   "property": "C26",
   "status": "proved",
   "theorems": [
    "C26_fifo",
    "C26_order"
   ],
   "note": "All interleavings and capacities."
  },
  {
   "property": "C27",
   "status": "proved",
   "theorems": [
    "C27_vectors",
    "C27_no_exhaustion",
    "C27_free_space"
   ],
   "note": "Proved for every history of operations on the vectors, every placement of the reallocated block and every number of vectors, for the pointer variant of the vectors (not COMPACT). A single vector of 2^47 elements is excluded, and exhaustion of the 2^48 addressable elements ends the program."
  },
  {
   "property": "C28",
   "status": "proved",
   "theorems": [
    "C28_stacks",
    "C28_shrinking"
   ],
   "note": "All histories and element sizes; allocation of memory is assumed to succeed."
  },
  {
   "property": "C29",
   "status": "proved",
   "theorems": [
    "C29_arena"
   ],
   "note": "All histories, both ward sizes. In debug builds an arena that is exactly full fails an assertion instead of the fatal message; both refuse the allocation."
  },
  {
   "property": "C30",
   "status": "proved",
   "theorems": [
    "C30_sort"
   ],
   "note": "All inputs and all strict weak orders."
  },
  {
   "property": "C31",
   "status": "proved",
   "theorems": [
    "C31_radix",
    "C31_permutation"
   ],
   "note": "All lists and all unsigned ranks; the comparison-based alternative is C30."
  },
  {
   "property": "C32",
   "status": "proved",
   "theorems": [
    "C32_reluctant_doubling_is_luby"
   ],
   "note": "All periods and limits allowed by the options; unlimited case as long as 64 bit suffice. With a limit the sequence restarts when the limit would be exceeded."
  },
  {
   "property": "C33",
   "status": "proved",
   "theorems": [
    "C33_picks_in_range",
    "C33_state_map_is_bijective"
   ],
   "note": "All states and all 32-bit ranges; double rounding modelled exactly."
  },
  {
   "property": "C34",
   "status": "partial",
   "theorems": [
    "C34_literals_partial"
   ],
   "note": "Compaction and fresh extension literals are missing."
  },
  {
   "property": "C35",
   "status": "proved",
   "theorems": [
    "C35_adding"
   ],
   "note": "All sequences of kissat_add and kissat_reserve, with and without tumbling."
  },
  {
   "property": "C36",
   "status": "partial",
   "theorems": [
    "C36_propagation_partial",
    "C36_complete_refuted"
   ],
   "note": "Every state of the search, for all schedules. Soundness, conflicts and completeness for falsified clauses are proved on every level, completeness for unit clauses on the root level. C36_complete_refuted: above the root level completeness for unit clauses fails, because reducing clauses above the root level rewatches satisfied clauses. Propagation in the inprocessing engines (dense, probing, beyond conflicts) is not modelled."
  },
  {
   "property": "C37",
   "status": "proved",
   "theorems": [
    "C37_deduced",
    "C37_learned"
   ],
   "note": "Every conflict analyzed in the search, including those found by on-the-fly strengthening, for all schedules and options of the model."
  },
  {
   "property": "C38",
   "status": "proved",
   "theorems": [
    "C38_minimized"
   ],
   "note": "Every clause deduced in the search, all depth limits and shrinking modes; minimization and shrinking are composed as in kissat_analyze."
  },
  {
   "property": "C39",
   "status": "proved",
   "theorems": [
    "C39_backtracking"
   ],
   "note": "Every state of the search after propagation, with or without conflict, and every lower level."
  },
  {
   "property": "C40",
   "status": "proved",
   "theorems": [
    "C40_equivalent",
    "C40_reduction"
   ],
   "note": "Every reduction in the search and every ranking of the clauses. Garbage collection is the sparse collector; the dense one used in variable elimination is not modelled."
  },
  {
   "property": "C41",
   "status": "proved",
   "theorems": [
    "C41_invariant",
    "C41_values",
    "C41_clauses",
    "C41_models",
    "C41_dense",
    "C41_search_state"
   ],
   "note": "For every state with the invariant cwf (variables, watches, clauses, units, trail and queue fit together), which the collection is proved to restore. That the search establishes cwf is not proved: the search of C01-C04 runs without compaction. Saved phases, scores and large reasons are left out of the state."
  },
  {
   "property": "C42",
   "status": "proved",
   "theorems": [
    "C42_substitution_is_implied",
    "C42_satisfiability",
    "C42_contradictory_equivalence",
    "C42_substituted_variables_vanish",
    "C42_models_are_extended",
    "C42_smallest_representatives"
   ],
   "note": "For every formula with clauses of at least two literals, every set of learned clauses implied by it, and every number of calls with any options, mode and rounds: models stay models, satisfiability is preserved in both directions (also if learned clauses are forgotten afterwards), models of what is left are extended to models of the formula down to the values reported by the interface, literals equivalent to a smaller one disappear for good, representatives are the smallest equivalent literals, and a literal equivalent to its negation gives the empty clause. Claims are about runs of the model that return (no failed assertion). The start state is that after connecting all clauses; the bound on effort is an argument."
  },
  {
   "property": "C43",
   "status": "partial",
   "theorems": [
    "C43_units_partial",
    "C43_equivalent_partial",
    "C43_satisfiable_partial",
    "C43_implied_partial",
    "C43_unsatisfiable_refuted",
    "C43_unknown_refuted",
    "C43_readable_partial"
   ],
   "note": "False as stated (C43_unsatisfiable_refuted, C43_unknown_refuted): the file does not contain root-level units or the empty clause, so it can be satisfiable although the input is not. Proved instead, unless the answer is 20: the file together with the root-level units has exactly the models of the input; every model of the input satisfies the file; after the answer 10 both are satisfiable and the reported values satisfy the file; without units they are equivalent; the parser accepts the file and gives back its clauses. The model has no inprocessing (elimination, substitution), and the header's clause count is modelled as the number of clauses written."
  },
  {
   "property": "C44",
   "status": "partial",
   "theorems": [
    "C44_count",
    "C44_count_unambiguous",
    "C44_time_partial",
    "C44_short_time_refuted",
    "C44_bytes_partial",
    "C44_huge_bytes_refuted",
    "C44_ordinal",
    "C44_strings_survive"
   ],
   "note": "Counts, ordinals, buffer safety proved; times that round to zero and byte counts above 2^64-2^29 refuted."
  },
  {
   "property": "C45",
   "status": "partial",
   "theorems": [
    "C45_between_partial",
    "C45_constant_partial",
    "C45_between_refuted",
    "C45_constant_refuted"
   ],
   "note": "The update of smooth.c, generic in the arithmetic. For exact rational arithmetic proved for all sequences of values and windows; for binary64 as used by the code refuted by rounding (window 33, constant 7)."
  },
  {
   "property": "C46",
   "status": "partial",
   "theorems": [
    "C46_adding_partial",
    "C46_reserve_refuted"
   ],
   "note": "Proved for kissat_add; refuted for kissat_reserve without tumbling after a unit clause."
  },
  {
   "property": "C47",
   "status": "partial",
   "theorems": [
    "C47_exit_code_partial",
    "C47_exit_code_refuted"
   ],
   "note": "Model of run_application and main for the default build: proved whenever the file of -o is not requested or can be written; refuted otherwise (exit code 0 after the status line was printed)."
  },
  {
   "property": "C48",
   "status": "partial",
   "theorems": [
    "C48_paths",
    "C48_force",
    "C48_output_refuted"
   ],
   "note": "Proved for the proof path; the path of -o is not checked at all (C48_output_refuted)."
  },
  {
   "property": "C49",
   "status": "proved",
   "theorems": [
    "C49_finish",
    "C49_constant"
   ],
   "note": "Model of lucky.c with its failed literal analysis; needs no fuel. Termination requests are not polled in lucky.c."
  },
  {
   "property": "C50",
   "status": "partial",
   "theorems": [
    "C50_rejected_partial",
    "C50_refuted"
   ],
   "note": "Proved once a search was started (C50_rejected_partial). False in general (C50_refuted): only the search itself is counted, so that after an answer of lucky phases, of a formula refuted while it was added, or after an immediate limit, further calls are accepted; after lucky phases the second kissat_solve violates an assertion."
  },
  {
   "property": "C51",
   "status": "partial",
   "theorems": [
    "C51_program_partial"
   ],
   "note": "Composition of the models of main function, option parsing, parser, interface, lucky phases, search and witness printing, from the bytes of the file to the lines printed. Missing as in C01: preprocessing and inprocessing; witness lines are covered unless parsing is relaxed (see C12)."
  },
  {
   "property": "C52",
   "status": "proved",
   "theorems": [
    "C52_total",
    "C52_equivalent",
    "C52_implications",
    "C52_clauses"
   ],
   "note": "For probing with backbone extraction and transitive reduction, as part of the search loop (all theorems about the search cover it). The limit on ticks is an argument: the reduction may stop after any candidate."
  },
  {
   "property": "C53",
   "status": "proved",
   "theorems": [
    "C53_total",
    "C53_backbone",
    "C53_clauses",
    "C53_found"
   ],
   "note": "Which literals are candidates, in which order, and when the limits stop a round is left open: the theorems hold for every list of candidates. Candidates tried after others may be skipped because they have a value already; then they are not tested in that round, as in the code."
  },
  {
   "property": "C54",
   "status": "partial",
   "theorems": [
    "C54_safe",
    "C54_total",
    "C54_fresh",
    "C54_equivalent",
    "C54_smaller",
    "C54_proof",
    "C54_limit_refuted"
   ],
   "note": "The factors and the large clauses considered are arguments, so that the theorems hold for every heuristic choice. C54_proof is about the whole proof, from the formula on. C54_limit_refuted: if the largest external variable 2^30-1 is used itself, an assertion fails instead (and without assertions variable 2^30 is created). Resuming sparse mode after factoring is not modelled."
  },
  {
   "property": "C55",
   "status": "proved",
   "theorems": [
    "C55_flags",
    "C55_witness",
    "C55_printed"
   ],
   "note": "Complete for the argument parser; what the answer, the file system and the values are is arbitrary."
  },
  {
   "property": "C56",
   "status": "proved",
   "theorems": [
    "C56_equivalent",
    "C56_contained",
    "C56_proof_implied",
    "C56_proof",
    "C56_proof_holds_clauses"
   ],
   "note": "The step and termination limits are the argument budget, the flags subsume are arbitrary. The theorems are about runs which return."
  },
  {
   "property": "C57",
   "status": "partial",
   "theorems": [
    "C57_read",
    "C57_fallback_refuted",
    "C57_write",
    "C57_same_format",
    "C57_command_partial",
    "C57_command_refuted",
    "C57_close",
    "C57_writable",
    "C57_directory_refuted",
    "C57_root_refuted"
   ],
   "note": "C57_read, C57_write, C57_same_format, C57_close: which file or program is opened and closed, for all paths and answers of the system, with no overflow. C57_command_partial: the words of the command, for paths with letters, digits and a few other characters; for a path with a blank (or another character with a meaning for the shell) the statement is false (C57_command_refuted). C57_writable: exactly which paths are accepted; a directory within a directory is accepted and new files in the root directory are not (C57_directory_refuted, C57_root_refuted). C57_fallback_refuted: without the program the compressed bytes are parsed."
  },
  {
   "property": "C58",
   "status": "partial",
   "theorems": [
    "C58_once",
    "C58_cause",
    "C58_ends",
    "C58_solving",
    "C58_moment",
    "C58_alarm",
    "C58_quiet",
    "C58_returned",
    "C58_no_crash",
    "C58_crash_partial",
    "C58_crash_refuted",
    "C58_finish"
   ],
   "note": "C58_once, C58_cause, C58_ends, C58_returned: for all schedules. C58_finish: without alarms every schedule with one of the five signals ends with the process killed by one of them. C58_moment: the first of the five signals ends the process, at every step; C58_solving and C58_alarm: the first signal which arrives while solving, at any step; C58_quiet: no signal. C58_no_crash: no call of a null pointer if there is no alarm. With alarms there is one window, within kissat_reset_alarm between handle.c 84 and 85 (C58_crash_partial), where it does happen (C58_crash_refuted)."
  }
 ]
}