{"id": "C01", "title": "Satisfiable answers are models", "statement": "If kissat_solve returns 10, then the assignment reported by kissat_value satisfies every clause that was added through kissat_add.", "quantifier": "every sequence of added clauses, every option setting of the modelled search, every decision/restart/reduce/phase schedule", "why_tests_cant": "Depends on watch-list completeness after every possible history of propagation, conflict analysis, chronological backtracking and reduction; a test sees one history.", "anchors": ["src/search.c:kissat_search", "src/propsearch.c", "src/proplit.h", "src/internal.c:kissat_value"]}
{"id": "C02", "title": "Unsatisfiable answers are correct", "statement": "If kissat_solve returns 20, then no assignment satisfies all clauses added through kissat_add.", "quantifier": "every clause sequence and every schedule of the modelled search", "why_tests_cant": "A universally quantified statement about all assignments and all learned-clause histories.", "anchors": ["src/search.c:kissat_search", "src/analyze.c:kissat_analyze", "src/learn.c", "src/deduce.c"]}
{"id": "C03", "title": "Every lemma in the proof is checkable", "statement": "Each clause that search writes to the proof as an addition is a reverse-unit-propagation (RUP) consequence of the clauses present at that moment (original clauses plus earlier additions minus deletions), and an answer 20 implies that the empty clause was written.", "quantifier": "every clause set, every trail with chronologically out-of-order levels, every conflict", "why_tests_cant": "Proof checkers validate single runs; the claim is for all runs.", "anchors": ["src/proof.c", "src/learn.c", "src/deduce.c", "src/minimize.c", "src/shrink.c", "src/strengthen.c"]}
{"id": "C04", "title": "kissat_value is a consistent partial assignment", "statement": "kissat_value(e) is always e, -e or 0; kissat_value(-e) reports the same truth value as kissat_value(e); variables never mentioned yield 0; calling it repeatedly never changes the answers.", "quantifier": "every solver state after solving and every literal", "why_tests_cant": "Ranges over all import maps, extension stacks and query orders.", "anchors": ["src/internal.c:kissat_value", "src/extend.c", "src/import.c"]}
{"id": "C05", "title": "Model reconstruction", "statement": "Extending a model of the simplified formula backwards over the extension stack yields an assignment satisfying both the simplified formula and every clause that was removed with a witness literal, provided each removal was satisfiability-preserving when it was made.", "quantifier": "every extension stack and every model of the remaining clauses", "why_tests_cant": "Interaction of arbitrarily many eliminations; flips can break earlier clauses unless the order is exactly backwards.", "anchors": ["src/extend.c:kissat_extend", "src/weaken.c"]}
{"id": "C06", "title": "Variable elimination preserves satisfiability", "statement": "Replacing all clauses of a variable by their resolvents (optionally only gate/non-gate resolvents) preserves satisfiability, and every model of the result extends, through the clauses pushed for reconstruction, to a model of the original.", "quantifier": "every formula, every pivot variable, every gate clause subset that defines the pivot", "why_tests_cant": "Universal over formulas and models.", "anchors": ["src/eliminate.c", "src/resolve.c", "src/weaken.c", "src/gates.c"]}
{"id": "C07", "title": "DIMACS round trip", "statement": "Printing any variable count and clause list as DIMACS and parsing that text yields no error and adds exactly those clauses, literal by literal, in order, in every strictness mode, regardless of comments and white space allowed by that mode.", "quantifier": "every list of clauses with indices up to the declared maximum (<= 2^30-1)", "why_tests_cant": "Infinitely many files.", "anchors": ["src/parse.c:parse_dimacs", "src/krite.c"]}
{"id": "C08", "title": "DIMACS acceptance implies well-formedness", "statement": "If a file is accepted (non-relaxed), every literal index is between 1 and the declared maximum, the number of clauses equals the declared number, every clause is zero terminated; no arithmetic on indices overflows for any byte sequence.", "quantifier": "every byte sequence", "why_tests_cant": "All byte strings, including adversarial ones with huge numbers.", "anchors": ["src/parse.c:parse_dimacs"]}
{"id": "C09", "title": "Strictness is monotone", "statement": "A file accepted with --strict is accepted without it and by --relaxed, with the same sequence of added literals.", "quantifier": "every byte sequence", "why_tests_cant": "All files.", "anchors": ["src/parse.c:parse_dimacs"]}
{"id": "C10", "title": "Parsing does not depend on read chunking", "statement": "The result of parsing is the same however the operating system splits the input into reads of at most 2^20 bytes.", "quantifier": "every byte sequence and every way of splitting it into non-empty reads", "why_tests_cant": "All schedules of short reads.", "anchors": ["src/parse.c:next", "src/parse.c:fill_buffer"]}
{"id": "C11", "title": "Parse errors carry the right line", "statement": "When a parse error is reported, the reported line number is the line on which the offending character occurs.", "quantifier": "every rejected byte sequence", "why_tests_cant": "All malformed files.", "anchors": ["src/parse.c:NONL", "src/application.c:parse_input"]}
{"id": "C12", "title": "Printed witness is complete and well formed", "statement": "The v-lines printed after an answer 10 are each at most 78 characters, contain each variable from 1 to the maximum exactly once in order with the sign reported by kissat_value, and end with 0; the printed literals satisfy all parsed clauses.", "quantifier": "every maximum variable, every assignment, both partial and complete mode, every parse mode", "why_tests_cant": "Line breaking depends on all widths of numbers.", "anchors": ["src/witness.c", "src/application.c:run_application"]}
{"id": "C13", "title": "Binary proof encoding is uniquely decodable", "statement": "Decoding the bytes written in binary proof mode gives back exactly the sequence of additions and deletions with their literals.", "quantifier": "every sequence of proof steps with external literals of absolute value below 2^31", "why_tests_cant": "All literals, all lengths.", "anchors": ["src/proof.c:print_binary_proof_line"]}
{"id": "C14", "title": "ASCII proof encoding is uniquely decodable", "statement": "Parsing the text written in non-binary proof mode gives back exactly the sequence of additions and deletions.", "quantifier": "every sequence of proof steps with external literals of absolute value below 2^31", "why_tests_cant": "All literals, all lengths.", "anchors": ["src/proof.c:print_non_binary_proof_line"]}
{"id": "C15", "title": "Proof buffering loses nothing", "statement": "At release of the proof (and after every line with --flushproof) the file holds exactly the bytes produced so far, in order, independent of buffer boundaries.", "quantifier": "every sequence of written bytes", "why_tests_cant": "Every alignment of lines with the 2^20 byte buffer.", "anchors": ["src/proof.c:write_char", "src/proof.c:flush_buffer"]}
{"id": "C16", "title": "Option lookup", "statement": "kissat_get_option / kissat_set_option find exactly the options in the table: a name is found if and only if it is listed, and then the entry of that name.", "quantifier": "every string", "why_tests_cant": "All strings, and correctness of the binary search depends on the whole table being sorted.", "anchors": ["src/options.c:kissat_options_has", "src/options.h:OPTIONS"]}
{"id": "C17", "title": "Option values stay in range", "statement": "After any sequence of set calls, command line options, configurations and embedded options every option value lies in its documented range; setting returns the previous value and changes no other option; unknown names change nothing and return 0.", "quantifier": "every sequence of set operations with arbitrary names and 32-bit values", "why_tests_cant": "All histories of option setting.", "anchors": ["src/options.c:kissat_options_set_opt", "src/config.c"]}
{"id": "C18", "title": "Option value syntax", "statement": "A value string is either rejected or evaluated to the integer it denotes ('true','false','123','-5','3e4','2^10'), never to a wrapped-around number, and never by executing an undefined operation.", "quantifier": "every string", "why_tests_cant": "All strings; overflow boundaries.", "anchors": ["src/options.c:kissat_parse_option_value"]}
{"id": "C19", "title": "Printed option values parse back", "statement": "The string printed for an option value by the usage text denotes the same value when given back on the command line.", "quantifier": "every 32-bit value other than the symbolic extremes", "why_tests_cant": "All integers.", "anchors": ["src/format.c:kissat_format_value", "src/options.c:kissat_parse_option_value"]}
{"id": "C20", "title": "Long option argument parsing", "statement": "A '--name=value', '--name' or '--no-name' argument is accepted only if the option exists and the value is in its range, and then exactly that option gets exactly that value.", "quantifier": "every argument string", "why_tests_cant": "All strings.", "anchors": ["src/options.c:kissat_options_parse_arg"]}
{"id": "C21", "title": "Resource limits and duplicate limit options", "statement": "Giving a limit option (--time, --conflicts, --decisions) twice is rejected; otherwise the given limit takes effect.", "quantifier": "every argument vector", "why_tests_cant": "All argument sequences.", "anchors": ["src/application.c:parse_options"]}
{"id": "C22", "title": "Termination requests", "statement": "After kissat_terminate, or once the callback installed with kissat_set_terminate returns non-zero, solving stops and returns 0 unless an answer was already established.", "quantifier": "every point in time of the request and every callback", "why_tests_cant": "All schedules.", "anchors": ["src/internal.c:kissat_set_terminate", "src/terminate.h", "src/search.c"]}
{"id": "C23", "title": "Limits", "statement": "With a conflict (decision) limit, search performs no further decision after the number of conflicts (decisions) reached the limit, returns 0 in that case, and an answer 10 or 20 given earlier is unaffected.", "quantifier": "every limit value and every history of conflicts and decisions", "why_tests_cant": "All histories.", "anchors": ["src/search.c:conflict_limit_hit", "src/internal.c:kissat_set_conflict_limit"]}
{"id": "C24", "title": "Score heap is a priority queue", "statement": "After any sequence of push, pop, update and rescale, the heap holds exactly the elements pushed and not popped, each position index is right, and the maximum returned has a score not smaller than any other element on the heap.", "quantifier": "every sequence of heap operations, every score sequence", "why_tests_cant": "All operation histories.", "anchors": ["src/heap.c", "src/inlineheap.h"]}
{"id": "C25", "title": "Decision queue", "statement": "The move-to-front queue always is a duplicate free doubly linked list of all enqueued variables with strictly increasing stamps, and the search pointer never skips an unassigned variable, so the next decision is the most recently moved unassigned variable.", "quantifier": "every sequence of enqueue, dequeue, move-to-front, assign and unassign operations", "why_tests_cant": "All histories, including stamp reassignment at overflow.", "anchors": ["src/inlinequeue.h", "src/queue.c", "src/decide.c"]}
{"id": "C26", "title": "FIFO", "statement": "Elements are dequeued in exactly the order in which they were enqueued, for any interleaving and any number of enlargements.", "quantifier": "every sequence of enqueue and dequeue operations", "why_tests_cant": "All interleavings with buffer moves.", "anchors": ["src/fifo.h"]}
{"id": "C27", "title": "Watch vectors never interfere", "statement": "Pushing to, removing from, resizing or releasing one watch vector, enlarging and defragmenting never changes the contents of any other vector, and the free-space counter is exact.", "quantifier": "every history of vector operations over any number of vectors", "why_tests_cant": "Aliasing inside one shared memory block depends on the entire history.", "anchors": ["src/vector.c", "src/inlinevector.h"]}
{"id": "C28", "title": "Growing stacks", "statement": "PUSH/POP/ENLARGE/SHRINK on stacks keep contents, never write outside the allocated block, and capacities stay powers of two times the element size.", "quantifier": "every operation history and element size", "why_tests_cant": "All histories.", "anchors": ["src/stack.h", "src/stack.c"]}
{"id": "C29", "title": "Clause arena addressing", "statement": "Every clause allocated in the arena occupies its own aligned range: references are distinct, ranges do not overlap, and walking from the start visits exactly the allocated clauses in order, also after clauses were shrunken in place.", "quantifier": "every sequence of clause sizes and shrink operations", "why_tests_cant": "All sizes.", "anchors": ["src/arena.c", "src/clause.h", "src/clause.c"]}
{"id": "C30", "title": "Sorting", "statement": "The generic sorter returns a permutation of its input ordered by the given strict weak order, without accessing elements outside the array.", "quantifier": "every array and every strict weak order", "why_tests_cant": "All arrays, quicksort partition boundaries.", "anchors": ["src/sort.h"]}
{"id": "C31", "title": "Radix sorting", "statement": "The radix sorter returns a stable permutation ordered by rank, for any rank width.", "quantifier": "every array and rank function", "why_tests_cant": "All arrays.", "anchors": ["src/rank.h"]}
{"id": "C32", "title": "Reluctant doubling is Luby", "statement": "The restart intervals triggered by reluctant doubling follow the Luby sequence times the period, capped by the limit.", "quantifier": "every number of ticks", "why_tests_cant": "The infinite sequence.", "anchors": ["src/reluctant.c"]}
{"id": "C33", "title": "Pseudo random numbers", "statement": "Random picks stay inside the requested range; the generator's state map is a bijection on 64-bit words, so the state never collapses; equal seeds give equal sequences.", "quantifier": "every seed and every range", "why_tests_cant": "2^64 states.", "anchors": ["src/random.h"]}
{"id": "C34", "title": "External and internal literals correspond", "statement": "Importing literals assigns distinct internal variables to distinct external variables, negation is respected, and exporting an imported literal gives back the external literal; fresh (extension) literals never clash with user literals.", "quantifier": "every sequence of literals, with and without tumbling, and after compaction", "why_tests_cant": "All import orders.", "anchors": ["src/import.c", "src/inline.h:kissat_export_literal", "src/compact.c"]}
{"id": "C35", "title": "Adding clauses preserves the formula", "statement": "After any sequence of kissat_add calls the solver's internal clauses, units and inconsistency flag together have exactly the same models as the clauses given by the user (duplicates, tautologies, satisfied and falsified literals included).", "quantifier": "every sequence of literals given to kissat_add", "why_tests_cant": "All clause sequences with arbitrary repetitions.", "anchors": ["src/internal.c:kissat_add"]}
{"id": "C36", "title": "Unit propagation is sound and complete", "statement": "Propagation assigns only literals implied by a clause all of whose other literals are false; it reports a conflict only if that clause is falsified; if it reports no conflict then no clause is falsified or has all but one literal false.", "quantifier": "every clause set, every trail, every watch-list order", "why_tests_cant": "All propagation orders.", "anchors": ["src/proplit.h", "src/propsearch.c"]}
{"id": "C37", "title": "Learned clauses are implied and asserting", "statement": "The first-UIP clause derived from a conflict is implied by the formula, all its literals are false, exactly one of them is on the conflict level, and the other watched literal has the jump level.", "quantifier": "every implication graph, including out-of-order trails", "why_tests_cant": "All implication graphs.", "anchors": ["src/deduce.c", "src/learn.c", "src/analyze.c"]}
{"id": "C38", "title": "Clause minimization and shrinking are sound", "statement": "Removing literals by recursive minimization or replacing a level's literals by their block-UIP leaves an implied clause.", "quantifier": "every implication graph and depth limit", "why_tests_cant": "All graphs.", "anchors": ["src/minimize.c", "src/shrink.c"]}
{"id": "C39", "title": "Backtracking restores exactly the lower levels", "statement": "After backtracking to a level exactly the literals of higher levels are unassigned, all lower-level literals keep value, reason and relative order, and literals that have to be propagated again are.", "quantifier": "every trail (including out-of-order levels) and target level", "why_tests_cant": "All trails.", "anchors": ["src/backtrack.c"]}
{"id": "C40", "title": "Reduction never deletes needed clauses", "statement": "Reducing the clause data base removes only redundant clauses that are not reasons; all irredundant clauses keep their literals apart from root-falsified ones; garbage collection preserves equivalence.", "quantifier": "every clause data base and ranking", "why_tests_cant": "All data bases.", "anchors": ["src/reduce.c", "src/collect.c"]}
{"id": "C41", "title": "Compaction keeps the meaning of variables", "statement": "Renumbering internal variables keeps for each external variable its value and the clauses it occurs in.", "quantifier": "every set of active variables", "why_tests_cant": "All renumberings.", "anchors": ["src/compact.c"]}
{"id": "C42", "title": "Equivalent literal substitution", "statement": "Replacing literals by the representatives of their binary-implication components preserves models up to the recorded reconstruction, and components containing a literal and its negation are reported unsatisfiable.", "quantifier": "every binary implication graph and clause set", "why_tests_cant": "All graphs.", "anchors": ["src/substitute.c"]}
{"id": "C43", "title": "Simplified formula written with -o", "statement": "The DIMACS file written by '-o' after solving is equisatisfiable with the input formula.", "quantifier": "every input formula", "why_tests_cant": "All formulas.", "anchors": ["src/krite.c:kissat_write_dimacs", "src/application.c"]}
{"id": "C44", "title": "Human readable numbers", "statement": "kissat_format_time, kissat_format_count, kissat_format_bytes, kissat_format_ordinal return a string describing the given argument.", "quantifier": "every argument", "why_tests_cant": "All 64-bit values.", "anchors": ["src/format.c"]}
{"id": "C45", "title": "Moving averages", "statement": "The bias-corrected exponential moving averages always lie between the smallest and largest value fed in and equal the common value on constant input.", "quantifier": "every sequence of updates and every window size", "why_tests_cant": "All sequences.", "anchors": ["src/smooth.c"]}
{"id": "C46", "title": "Legal calls never fail", "statement": "A sequence of calls of kissat_add and kissat_reserve with arguments in the documented range before kissat_solve is executed without failed assertion, abort or undefined operation.", "quantifier": "every sequence of legal calls, with and without tumbling", "why_tests_cant": "All sequences.", "anchors": ["src/internal.c:kissat_add", "src/internal.c:kissat_reserve", "src/flags.c:kissat_activate_literal"]}
{"id": "C47", "title": "Exit code and status line agree", "statement": "The exit code of the program is 10, 20 or 0 exactly as the answer of the solver is satisfiable, unsatisfiable or unknown, the status line printed says the same, a rejected command line or input gives exit code 1 and no status line, and an information option gives 0.", "quantifier": "every command line, file system and answer of the solver", "why_tests_cant": "All command lines and file system states.", "anchors": ["src/application.c:run_application", "src/application.c:parse_options", "src/main.c:main"]}
{"id": "C48", "title": "Files given are not overwritten by accident", "statement": "An accepted command line never lets the proof be written over the input file, not even under another name of it, and without '--force' never over an existing file with a name ending in '.cnf', '.dimacs' (possibly compressed); the input of an accepted command line is readable and the proof path writable. The same holds for the file given with '-o'.", "quantifier": "every command line and file system", "why_tests_cant": "All command lines and file system states.", "anchors": ["src/application.c:parse_options", "src/file.c"]}
{"id": "C49", "title": "Lucky phases finish and answer correctly", "statement": "The lucky phases tried before the search always finish without a limit; an answer 10 comes with values satisfying the formula, an answer 20 is only given to unsatisfiable formulas, the proof stays correct, and without an answer the clauses held are equivalent to the formula. Formulas satisfied by making all variables true or all false are answered 10 without search.", "quantifier": "every formula, and both places where lucky phases are tried", "why_tests_cant": "All formulas.", "anchors": ["src/lucky.c:kissat_lucky", "src/search.c:kissat_search", "src/analyze.c:kissat_analyze"]}
{"id": "C50", "title": "Incremental use is rejected", "statement": "After kissat_solve has returned, further calls of kissat_add and kissat_solve are rejected with a fatal error instead of being executed on the used solver.", "quantifier": "every formula and every answer", "why_tests_cant": "All formulas and answers.", "anchors": ["src/internal.c:kissat_add", "src/internal.c:kissat_solve", "src/search.c:start_search"]}
{"id": "C51", "title": "The printed result is right for the input file", "statement": "Whenever the program prints a status line, the input file is in the DIMACS format; 's SATISFIABLE' is only printed if the clauses in the file are satisfiable, 's UNSATISFIABLE' only if they are not, and the literals in the 'v' lines do not contradict each other and satisfy every clause of the file.", "quantifier": "every byte sequence as input file, every command line and every run of the solver", "why_tests_cant": "All files, command lines and runs.", "anchors": ["src/application.c:run_application", "src/parse.c:kissat_parse_dimacs", "src/internal.c:kissat_solve", "src/witness.c:kissat_print_witness"]}
{"id": "C52", "title": "Transitive reduction keeps what follows from each literal", "statement": "When binary clauses are reduced during the search, the clauses held before and after are both equivalent to the formula, every literal implies the same literals over chains of binary clauses as before, only binary clauses are removed and no clause is added; the reduction ends on every input and fixed literals stay fixed.", "quantifier": "every formula, every state of the search in which probing starts, every choice of the literals probed and of the points where the limits are hit", "why_tests_cant": "All formulas, histories of the search and probing schedules.", "anchors": ["src/transitive.c:kissat_transitive_reduction", "src/transitive.c:transitive_reduce", "src/probe.c:kissat_probe"]}
{"id": "C53", "title": "Backbone extraction finds only implied literals, and finds failed ones", "statement": "When the search looks for backbone literals over binary clauses, it ends whatever the candidates are; every literal it fixes is true in all satisfying assignments of the formula and the formula is only declared unsatisfiable if it is; no clause is added or removed and fixed literals stay fixed. A candidate that leads to a conflict by binary clauses alone, tried first in a round, is found: its negation is fixed, or the formula is found unsatisfiable.", "quantifier": "every formula, every state of the search in which probing starts, every choice and order of candidates and rounds", "why_tests_cant": "All formulas, histories of the search and candidate lists.", "anchors": ["src/backbone.c:kissat_binary_clauses_backbone", "src/backbone.c:compute_backbone", "src/backbone.c:backbone_analyze", "src/probe.c:kissat_probe"]}
{"id": "C54", "title": "Bounded variable addition keeps the formula equivalent and makes it smaller", "statement": "When the search replaces groups of clauses by introducing new variables, then an assignment that satisfies the clauses afterwards satisfies the formula, and every satisfying assignment of the formula can be extended to the new variables so that the clauses afterwards are satisfied. Every new variable gets the next unused external number and no other variable changes its number; the number of clauses drops by more than the given bound for every new variable; the lines written to the proof are accepted by a DRAT checker; if no variable is left, the technique stops without failing.", "quantifier": "every formula, every state of the search in which inprocessing starts, every choice and order of factors, every subset of large clauses considered, every bound", "why_tests_cant": "All formulas, histories of the search, choices of factors and bounds; the limit on variables is far beyond any test.", "anchors": ["src/factor.c:kissat_factor", "src/factor.c:apply_factoring", "src/factor.c:factorize_next", "src/import.c:kissat_fresh_literal", "src/watch.c:kissat_flush_large_watches"]}
{"id": "C55", "title": "Flags on the command line select what they say", "statement": "If the command line is accepted, the parsing mode is the one selected by the only mode flag given, or the normal one if none is given, and two mode flags are never accepted together; the proof is written as text if and only if a flag asks for it; the witness is printed for satisfiable formulas unless '-n' is given or the formula goes to standard output, and it is partial if and only if '--partial' is given. An argument following '-o' is a path and never taken as a flag.", "quantifier": "every list of arguments, every state of the file system, every build configuration, every answer of the solver", "why_tests_cant": "All combinations and orders of arguments; flags interact with paths and with each other.", "anchors": ["src/application.c:parse_options", "src/application.c:run_application", "src/application.c:kissat_application"]}
{"id": "C56", "title": "Forward subsumption keeps the formula equivalent", "statement": "When clauses are removed because another clause subsumes them, strengthened by self-subsuming resolution, or dropped as duplicated binary clauses, an assignment satisfies the formula before if and only if it satisfies the clauses and units afterwards; the empty clause is derived from unsatisfiable formulas only. No clause gets longer and no clause other than units is new, and every line added to the proof follows from the formula and has reverse unit propagation for the clauses present at this point, and every deleted line is present.", "quantifier": "every formula, every set of variables considered, every occurrence and size limit, every number of clauses checked before a limit stops the search", "why_tests_cant": "All formulas and limits; strengthening interacts with units found on the way, with partially connected clauses and with clauses that become garbage in between.", "anchors": ["src/forward.c:kissat_forward_subsume_during_elimination", "src/forward.c:forward_subsumed_clause", "src/forward.c:forward_literal", "src/forward.c:remove_all_duplicated_binary_clauses", "src/eliminate.c:kissat_flush_units_while_connected"]}
{"id": "C57", "title": "The files named are the files read and written, compressed or not", "statement": "Opening a path to read gives the contents of that file: through the decompression program if the name has the suffix of a supported format, the file starts with the bytes of this format, and the program is installed and can be started, and as it is otherwise; opening fails only if the file can not be opened. Opening a path to write with such a suffix writes through the compression program for the same format or fails; other files are written as they are. The command given to the shell names the path as one word, and its buffer never overflows. Each stream opened is closed once with the right function, standard streams are not closed. A path is accepted for writing if and only if it can be written.", "quantifier": "every path, file system, file contents, value of PATH and failure of a system call", "why_tests_cant": "All paths with all characters, all contents, all values of PATH and all answers of the system.", "anchors": ["src/file.c:kissat_open_to_read_file", "src/file.c:kissat_open_to_write_file", "src/file.c:kissat_close_file", "src/file.c:kissat_find_executable", "src/file.c:kissat_file_writable", "src/utilities.c:kissat_has_suffix"]}
{"id": "C58", "title": "Signals end the process properly at any moment", "statement": "One of the signals caught (abort, bus error, interrupt, segmentation violation, termination) which arrives while the solver runs prints the report once and then ends the process with the same signal. Once one of these signals has arrived the process does not return an exit code any more, at most one report is printed, and only signals which arrived are reported or end the process. The alarm asks the solver to terminate, after which the process continues. Without signals the process returns its exit code and the handlers installed before are in place again. No handler calls a missing function or uses a solver which is not there.", "quantifier": "every number of steps of the application and every schedule of signals, between any two accesses to the shared variables, also nested within handlers", "why_tests_cant": "The schedules are unbounded and the windows between two assignments are a few instructions wide.", "anchors": ["src/handle.c:catch_signal", "src/handle.c:catch_alarm", "src/handle.c:kissat_init_signal_handler", "src/handle.c:kissat_reset_signal_handler", "src/handle.c:kissat_init_alarm", "src/handle.c:kissat_reset_alarm", "src/main.c:main", "src/main.c:kissat_alarm_handler"]}
