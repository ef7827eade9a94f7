{"id": "C01", "title": "Reported assignments satisfy every active constraint", "statement": "Whenever the theory accepts the literals currently assigned (propagation ended without conflict), the values returned by the assignment API satisfy every linear constraint whose literal is true, with exact rational arithmetic.", "quantifier": "every set of inequalities, every history of propagate/undo calls the host may issue, every variable", "why_tests_cant": "the values depend on the entire history of bound updates, pivots and backtracks; tests see a handful of histories", "anchors": ["libclingo-lpx/src/solving.cc: Solver::solve, Solver::update_bound_, Solver::select_, Solver::pivot_, Solver::update_, Solver::undo", "libclingo-lpx/src/clingo-lpx.cc: LPXPropagatorFacade::get_value"]}
{"id": "C02", "title": "Conflict clauses never cut off a solution", "statement": "Every clause the theory adds because of a conflict is a consequence of the linear constraints: there is no rational assignment satisfying simultaneously all constraints whose (true) literals are negated in the clause.", "quantifier": "every problem, every history, every clause added by a conflict", "why_tests_cant": "an unsound clause silently removes answer sets; absence of a solution cannot be tested exhaustively", "anchors": ["libclingo-lpx/src/solving.cc: Solver::select_, Solver::update_bound_, Solver::solve"]}
{"id": "C03", "title": "Propagated bound clauses are valid", "statement": "With option propagate-bounds, every clause added is implied by the linear constraints of the literals it negates.", "quantifier": "every problem, every reachable solver state, every row and every bound", "why_tests_cant": "same as above; the reasons are collected from the current tableau which is history dependent", "anchors": ["libclingo-lpx/src/solving.cc: Solver::propagate_"]}
{"id": "C04", "title": "Static conflict clauses are exact", "statement": "Two bounds on the same variable are declared conflicting (propagate-conflicts) iff no value satisfies both; hence the binary clauses added at initialization are valid, and any two jointly unsatisfiable bounds of a variable whose literals are not complementary or already false get one.", "quantifier": "every pair of bounds over rationals and over rationals with epsilon", "why_tests_cant": "infinitely many pairs of values", "anchors": ["libclingo-lpx/src/solving.cc: Solver::Bound::conflicts, Solver::prepare"]}
{"id": "C05", "title": "Backtracking restores bounds and values exactly", "statement": "Undoing a decision level restores, for every variable, the lower and upper bound it had before that level, and the value it had then (or the stored satisfying one).", "quantifier": "every problem, every history, every level", "why_tests_cant": "requires all interleavings of bound updates within and across levels", "anchors": ["libclingo-lpx/src/solving.cc: Variable::update_upper, Variable::update_lower, Variable::set_value, Solver::undo"]}
{"id": "C06", "title": "The feasibility check always terminates", "statement": "For every problem and every set of literals, a propagate call ends after finitely many pivots (no cycling).", "quantifier": "every problem, every reachable state, every list of literals", "why_tests_cant": "termination is a liveness statement about unboundedly many pivots", "anchors": ["libclingo-lpx/src/solving.cc: Solver::solve, Solver::select_, Solver::pivot_"]}
{"id": "C07", "title": "The feasibility check is a decision procedure", "statement": "A propagate call ends without conflict iff the constraints of the true literals are jointly satisfiable over the rationals (with epsilon in strict mode).", "quantifier": "every problem, every history", "why_tests_cant": "satisfiability is a statement about all rational assignments", "anchors": ["libclingo-lpx/src/solving.cc: Solver::solve"]}
{"id": "C08", "title": "Local optimum is optimal", "statement": "When a model is reported with a bounded objective value, that value is attained by the reported assignment and no assignment satisfying the active constraints has a larger value.", "quantifier": "every problem with objective, every feasible state, all rational assignments", "why_tests_cant": "quantifies over all feasible assignments", "anchors": ["libclingo-lpx/src/solving.cc: Solver::optimize, Solver::get_objective"]}
{"id": "C09", "title": "Unbounded objective is really unbounded", "statement": "When a model is reported with an unbounded objective, then for every value there is an assignment satisfying the active constraints whose objective exceeds it.", "quantifier": "every problem with objective, every feasible state, every value", "why_tests_cant": "quantifies over all values", "anchors": ["libclingo-lpx/src/solving.cc: Solver::optimize"]}
{"id": "C10", "title": "Optimization terminates and keeps feasibility", "statement": "Computing the optimum ends after finitely many steps, keeps every active bound satisfied at every step, and never decreases the objective.", "quantifier": "every problem with objective, every feasible state", "why_tests_cant": "degenerate cycling cannot be excluded by examples", "anchors": ["libclingo-lpx/src/solving.cc: Solver::optimize, Solver::pivot_, Solver::update_"]}
{"id": "C11", "title": "Pivoting preserves the solution space", "statement": "Tableau::pivot(i,j) yields a tableau whose equations, with y_i and x_j exchanged, have exactly the same solutions, for all integer matrices with row denominators of either sign.", "quantifier": "every well-formed tableau and every non-zero pivot element", "why_tests_cant": "infinitely many tableaux; integer gcd normalisation and sign cases", "anchors": ["libclingo-lpx/src/tableau.cc: Tableau::pivot, Tableau::simplify_", "doc/pivot.lyx"]}
{"id": "C12", "title": "Tableau get/set behave like a matrix", "statement": "After set(i,j,a), get(i,j) is a and every other entry is unchanged; entries never set are zero.", "quantifier": "every tableau reachable by set and pivot, every index pair, every rational", "why_tests_cant": "infinitely many matrices and denominators", "anchors": ["libclingo-lpx/src/tableau.cc: Tableau::set, Tableau::get, reserve_row_, reserve_col_"]}
{"id": "C13", "title": "Row and column iteration visit exactly the non-zero entries", "statement": "update_row and update_col call their function exactly once for each non-zero entry of the row/column, in increasing order, despite lazy deletion in the column index.", "quantifier": "every tableau reachable by any sequence of set, update_col and pivot", "why_tests_cant": "the lazily pruned column lists depend on the whole history", "anchors": ["libclingo-lpx/src/tableau.hh: update_row, update_col", "libclingo-lpx/src/tableau.cc: Tableau::pivot (column bookkeeping)"]}
{"id": "C14", "title": "Tableau and solver never execute undefined behaviour", "statement": "No index out of range, dereference of a missing cell, null bound dereference, empty container access or division by zero happens in prepare, solve, undo or optimize.", "quantifier": "every problem, every host-conforming history", "why_tests_cant": "memory safety over all histories", "anchors": ["libclingo-lpx/src/tableau.cc: unsafe_get", "libclingo-lpx/src/solving.cc: pivot_, basic_, non_basic_, lower(), upper()"]}
{"id": "C15", "title": "Epsilon values are faithful to strict inequalities", "statement": "In strict mode, if the values with epsilon satisfy a finite set of (strict and non-strict) constraints then there is a positive rational e0 such that for every rational 0<e<=e0, substituting e for epsilon satisfies all of them as ordinary rational constraints; conversely a rational solution gives an epsilon solution.", "quantifier": "every finite set of constraints, every assignment", "why_tests_cant": "existence of e0 for all constraint sets", "anchors": ["libclingo-lpx/src/number.hh: RationalQ", "libclingo-lpx/src/solving.cc: bound_val, bound_rel"]}
{"id": "C16", "title": "Numbers with epsilon form an ordered vector space", "statement": "Comparison operators of numbers with epsilon agree with each other, form a total order, and are compatible with addition and with multiplication/division by integers.", "quantifier": "all numbers with epsilon, all rationals/integers", "why_tests_cant": "algebraic laws over infinite domain", "anchors": ["libclingo-lpx/src/number.hh: compare, operator+,-,*,/,<,<=,>,>=,==,!="]}
{"id": "C17", "title": "Sum terms denote their linear expression", "statement": "If a theory term is accepted in a &sum/&minimize/&maximize element or guard, the produced list of coefficient-variable pairs evaluates, under every assignment, to the arithmetic value of the term (products and quotients included); terms multiplying variables or dividing by non-constants or zero are rejected.", "quantifier": "every theory term, every assignment of rationals to variables", "why_tests_cant": "unbounded nesting of terms", "anchors": ["libclingo-lpx/src/parsing.cc: parse_sum_elem, evaluate, evaluate_num, evaluate_var"]}
{"id": "C18", "title": "Normalization preserves meaning and is canonical", "statement": "Moving guard and constants to the right-hand side and merging coefficients keeps the constraint equivalent under every assignment; the result has pairwise distinct variables, no zero coefficients and no constants.", "quantifier": "every term list, every relation, every assignment", "why_tests_cant": "infinitely many term lists", "anchors": ["libclingo-lpx/src/parsing.cc: simplify, parse_theory"]}
{"id": "C19", "title": "&dom is the conjunction of two &sum constraints", "statement": "&dom{l..u}=x is accepted with the same effect as &sum{x}>=l and &sum{x}<=u under the same literal.", "quantifier": "every &dom atom with numeric bounds", "why_tests_cant": "all bounds and variables", "anchors": ["libclingo-lpx/src/parsing.cc: parse_theory (dom)"]}
{"id": "C20", "title": "&diff is a &sum", "statement": "&diff{a-b} rel t yields the same inequality as &sum{a-b} rel t.", "quantifier": "every accepted &diff atom", "why_tests_cant": "unbounded nesting of terms a, b, t", "anchors": ["libclingo-lpx/src/parsing.cc: parse_diff_elem, parse_theory (diff)"]}
{"id": "C21", "title": "Conditional elements count exactly when their condition holds", "statement": "An element t:c of a &sum or objective contributes the value of t in every solution where the condition literal is true and contributes 0 where it is false.", "quantifier": "every element (variables and constants), every assignment, both truth values", "why_tests_cant": "all combinations of conditions and terms", "anchors": ["libclingo-lpx/src/parsing.cc: parse_sum_elems"]}
{"id": "C22", "title": "&minimize is &maximize with negated coefficients; objectives have no constant", "statement": "Objectives from several statements add up, minimize statements count negatively, and the program is rejected exactly if the constants do not cancel.", "quantifier": "every list of objective statements", "why_tests_cant": "all lists", "anchors": ["libclingo-lpx/src/parsing.cc: parse_theory (minimize/maximize)"]}
{"id": "C23", "title": "Quoted decimals are read exactly", "statement": "A quoted string matching -?d+(.d+)? denotes exactly the written decimal number, for any number of digits; any other quoted string is not a number.", "quantifier": "every string", "why_tests_cant": "arbitrary precision", "anchors": ["libclingo-lpx/src/parsing.cc: as_num, is_string"]}
{"id": "C24", "title": "Constraints without variables are decided correctly", "statement": "A constraint whose left-hand side cancels to the empty sum is treated as true iff 0 rel rhs holds; otherwise its literal is forced false.", "quantifier": "every relation, every rational right-hand side", "why_tests_cant": "finite relations but all rationals; the existing tests never exercise it", "anchors": ["libclingo-lpx/src/solving.cc: Solver::prepare lines 293-330"]}
{"id": "C25", "title": "Inequalities become equivalent bounds", "statement": "For a constraint with one variable, the derived bound (dividing by the coefficient and inverting the relation when negative) holds iff the constraint holds; with more variables the row plus bound is equivalent to the constraint.", "quantifier": "every constraint, every assignment", "why_tests_cant": "all coefficients and signs", "anchors": ["libclingo-lpx/src/solving.cc: Solver::prepare, bound_val, bound_rel", "libclingo-lpx/src/problem.cc: invert"]}
{"id": "C26", "title": "Shared objective value is the best reported, under any schedule", "statement": "For any interleaving of reports from solver threads, the shared objective is the maximum of all bounded values reported up to the first unbounded one, unbounded is absorbing, and each thread that polls obtains every change at most once and never misses the latest.", "quantifier": "every interleaving of update and value calls by any number of threads", "why_tests_cant": "all schedules", "anchors": ["libclingo-lpx/src/solving.cc: ObjectiveState::update, ObjectiveState::value, ObjectiveState::reset, Propagator::on_model"]}
{"id": "C27", "title": "Global optimization never discards an improving solution", "statement": "The bound asserted from the shared objective (value plus step) excludes only assignments whose objective is smaller than best plus step; with unbounded objective only assignments with bounded optimum are discarded.", "quantifier": "every problem, every objective value, every step", "why_tests_cant": "all solutions", "anchors": ["libclingo-lpx/src/solving.cc: Solver::integrate_objective, Solver::discard_bounded, Solver::assert_bound_"]}
{"id": "C28", "title": "Assignment iteration enumerates every user variable exactly once", "statement": "assignment_begin/next enumerates, in increasing index order, exactly the indices of the variables that are not auxiliary; each has a value; lookup_symbol and get_symbol are inverse; indices of known symbols never change in later steps.", "quantifier": "every sequence of multi-shot steps, every symbol", "why_tests_cant": "all symbol sets and step sequences", "anchors": ["libclingo-lpx/src/clingo-lpx.cc: LPXPropagatorFacade::next, lookup_symbol, get_symbol, has_value", "libclingo-lpx/src/solving.cc: Propagator::init"]}
{"id": "C29", "title": "Sign heuristic only flips the given literal", "statement": "decide returns the fallback literal or its complement; with select=none always the fallback; with match a literal whose bounds are violated by the current assignment is flipped, with conflict one whose bound holds.", "quantifier": "every state, every literal, every heuristic", "why_tests_cant": "all states", "anchors": ["libclingo-lpx/src/solving.cc: Solver::adjust, Propagator::decide"]}
{"id": "C30", "title": "Option values are parsed case-insensitively and invalid ones are rejected without effect", "statement": "Each option accepts exactly the documented words (any case) and stores the corresponding setting; any other value is rejected and leaves all settings unchanged.", "quantifier": "every string", "why_tests_cant": "all strings", "anchors": ["libclingo-lpx/src/clingo-lpx.cc: iequals_pre, iequals, parse_bool, parse_select, parse_propagate, parse_store, parse_objective"]}
{"id": "C31", "title": "configure() sets exactly the named option", "statement": "clingolpx_configure(key,value) with a valid key and value sets exactly that option as the command-line option of the same name does; with an invalid key or value it fails, names the offending key and changes nothing.", "quantifier": "every key and value", "why_tests_cant": "the object layout effect of a wrong cast is invisible to functional tests", "anchors": ["libclingo-lpx/src/clingo-lpx.cc: clingolpx_configure, check_parse"]}
{"id": "C32", "title": "Epsilon steps require strict mode", "statement": "validate_options fails iff strict mode is off and the objective step has an epsilon component; after successful validation integrating an objective bound never throws.", "quantifier": "every option setting", "why_tests_cant": "all rational steps", "anchors": ["libclingo-lpx/src/clingo-lpx.cc: clingolpx_validate_options", "libclingo-lpx/src/solving.cc: as_value"]}
{"id": "C33", "title": "Statistics add up over threads and steps", "statement": "The accumulated pivots and propagated bounds grow by the sum over all solver threads in each step and the step statistics are the sum over all threads of the step.", "quantifier": "every number of threads, every counter value", "why_tests_cant": "all thread counts", "anchors": ["libclingo-lpx/src/solving.cc: Propagator::on_statistics"]}
{"id": "C34", "title": "Storing satisfying assignments is harmless", "statement": "With store=partial/total, after any backtracking the kept values still satisfy the tableau and all remaining bounds; bounds are unaffected.", "quantifier": "every history, every backtrack depth", "why_tests_cant": "all histories", "anchors": ["libclingo-lpx/src/solving.cc: Solver::store_sat_assignment, Solver::undo"]}
{"id": "C35", "title": "Facts survive multi-shot steps", "statement": "Literals that became true on the top level in earlier steps are enforced again by every thread in the next step before any model is accepted.", "quantifier": "every sequence of steps and threads", "why_tests_cant": "all step sequences", "anchors": ["libclingo-lpx/src/solving.cc: Propagator::init, Propagator::check, Propagator::propagate"]}
{"id": "C36", "title": "Callbacks of different threads do not race on shared data", "statement": "No thread reads propagator-wide data while another one modifies it without synchronization.", "quantifier": "every interleaving of callbacks of different threads", "why_tests_cant": "all schedules", "anchors": ["libclingo-lpx/src/solving.cc: Propagator::propagate (facts_), Propagator::check (facts_), ObjectiveState"]}
{"id": "C37", "title": "Printed values identify the number", "statement": "Distinct numbers with epsilon are printed differently; the printed text of a value in strict mode shows its rational and epsilon part.", "quantifier": "all numbers", "why_tests_cant": "infinite domain", "anchors": ["libclingo-lpx/src/number.hh: operator<<(RationalQ)"]}
{"id": "C38", "title": "Integer comparison is numeric order", "statement": "compare(a,b), <, <=, >, >= on arbitrary precision integers agree with the numeric order.", "quantifier": "all integers of any size", "why_tests_cant": "big integers beyond machine words", "anchors": ["libclingo-lpx/src/number_flint.hh: compare(Integer,Integer)", "libclingo-lpx/src/number_imath.hh: compare(Integer,Integer)"]}
{"id": "C39", "title": "Malformed theory atoms are rejected with an error, not a crash", "statement": "Every theory atom that does not follow the documented syntax makes evaluation stop with a syntax error; it never aborts the process.", "quantifier": "every theory atom", "why_tests_cant": "unbounded nesting", "anchors": ["libclingo-lpx/src/parsing.cc: evaluate, parse_theory, check_syntax"]}
{"id": "C40", "title": "Reported objective value matches the reported variable values", "statement": "In every state and on every thread the objective value returned by the API (and printed with a model) equals the objective expression evaluated at the variable values returned by the API; an objective value is returned exactly if the program has an objective.", "quantifier": "every program, every history of callbacks, every thread", "why_tests_cant": "the value is maintained incrementally through pivots and backtracking; all histories", "anchors": ["libclingo-lpx/src/solving.cc: Solver::get_objective, Solver::get_value, Prepare, pivot_, update_", "libclingo-lpx/src/clingo-lpx.cc: on_model/extend_model"]}
{"id": "C41", "title": "Global optimization makes progress", "statement": "With global optimization (option strict/step), each model reported with a bounded objective value is better than every model reported before, on any thread, by at least the configured step; once a model with an unbounded objective has been reported only models with unbounded objective follow. Consequently the number of reported models is bounded by (maximum - first value)/step + 1 whenever the objective is bounded and the step is positive.", "quantifier": "every program, every number of threads, every interleaving of callbacks in which a model is reported by the thread that accepted it before another thread reports one", "why_tests_cant": "the bound travels through shared state, generation counters and asserted literals of several threads; all schedules", "anchors": ["libclingo-lpx/src/solving.cc: Solver::integrate_objective, Solver::discard_bounded, Solver::assert_bound_, Propagator::check, Propagator::on_model, ObjectiveState"]}
{"id": "C42", "title": "An exhausted search proves optimality (or unsatisfiability)", "statement": "If clingo finds that no further truth assignment of the program satisfies the clauses added by the theory, then no remaining model of the program admits a solution whose objective exceeds the best reported value by the step or more; if nothing was reported (or global optimization is off) no remaining model admits a solution at all; and no remaining model has an unbounded objective.", "quantifier": "every program, every history of callbacks, every truth assignment and every rational solution", "why_tests_cant": "quantifies over all solutions of all models that were never enumerated", "anchors": ["libclingo-lpx/src/solving.cc: Solver::solve, Solver::propagate_, Solver::integrate_objective, Solver::discard_bounded, Solver::prepare"]}
{"id": "C43", "title": "Both arithmetic libraries compute the same tableau", "statement": "Whatever sequence of set, pivot and column iterations is applied to the tableau, every integer division performed is by a divisor other than zero and without remainder; hence the FLINT build (whose exact division is undefined otherwise) and the imath build (which truncates) end up with the same cells and denominators.", "quantifier": "all sequences of tableau operations with arbitrary rationals, any size", "why_tests_cant": "an inexact division would only show for particular numerators and denominators; the build under test uses one library", "anchors": ["libclingo-lpx/src/number_flint.hh: divide, gcd_div", "libclingo-lpx/src/number_imath.hh: divide, gcd_div", "libclingo-lpx/src/tableau.cc: Tableau::set, simplify_, pivot"]}
{"id": "C44", "title": "Options, threads and search order do not change the answers", "statement": "Two runs in which the same constraints are true give the same verdict (conflict or not) and the same objective value (bounded with the same value, or unbounded), whatever --select, --propagate-bounds, --propagate-conflicts, --store, --strict, the number of threads, the order of constraints and the order of callbacks before are.", "quantifier": "all pairs of runs of a program with any options, threads and histories", "why_tests_cant": "pairs of unbounded histories", "anchors": ["libclingo-lpx/src/solving.cc: Solver::solve, Solver::optimize, Propagator::propagate, Propagator::check", "libclingo-lpx/src/clingo-lpx.cc: options"]}
{"id": "C45", "title": "Arithmetic wrappers are exact in every overload", "statement": "Every arithmetic operator (lvalue, moved and compound-assignment form; right operand a machine integer, an Integer or a Rational, possibly the left operand itself), every comparison, constructor, copy, move, negation, add_mul, gcd and as_int of Integer and Rational yields the mathematical value in lowest terms, in a new object (or in the left operand for compound assignments), leaves a moved-from operand usable, and changes no other number. Division by zero aborts with FLINT and throws with imath.", "quantifier": "all numbers, both arithmetic libraries (FLINT old and new), all overloads, all aliasing of whole objects", "why_tests_cant": "numbers are unbounded and the overloads differ only in which buffer is read, written or swapped; tests run one library", "anchors": ["libclingo-lpx/src/number_flint.hh: Integer, Rational", "libclingo-lpx/src/number_imath.hh: Integer, Rational"]}
{"id": "C46", "title": "The registered grammar admits what the solver supports and nothing else", "statement": "clingo reads the terms of theory atoms the way they are conventionally read: unary minus binds stronger than * and /, these stronger than + and -, these stronger than .., and operators of the same strength associate to the left. Without --strict no atom with < or > gets past the grammar, so the solver over plain rationals never sees a strict inequality; with --strict all five relations can be written. Every atom the grammar admits is one of the five kinds the solver interprets, any relation that comes with it has a meaning and all its operators are known; atoms of other theories are ignored. clingo calls back for decisions if and only if a sign heuristic was selected.", "quantifier": "all option settings, all token sequences, all theory atoms, all multi-shot programs made of admitted atoms and atoms of other theories", "why_tests_cant": "the grammar is text interpreted by clingo at run time; what it lets through is an infinite language", "anchors": ["libclingo-lpx/src/parsing.hh: THEORY, THEORY_Q", "libclingo-lpx/src/clingo-lpx.cc: clingolpx_register, LPXPropagatorFacade"]}
{"id": "C47", "title": "The printed answer is the reported model", "statement": "For every model the clingo-lpx application prints the shown symbols in ascending order separated by single spaces, a line 'Assignment:', then every variable of the program exactly once, in ascending order, as name=value with the value the API reports, and, if and only if the program has an objective, a line 'Optimization: value [bounded]' or '[unbounded]' as reported by the solver. The Python application prints the same without the objective.", "quantifier": "all states of all sessions (any programs, options, threads, histories), all sets of shown symbols, both value types", "why_tests_cant": "values, variables and histories are unbounded; the printing relies on every symbol passing through clingo's theory symbols, sorting and matching", "anchors": ["app/src/main.cc: App::print_model", "libpyclingo-lpx/clingolpx/__main__.py: print_model", "libclingo-lpx/src/clingo-lpx.cc: extend_model"]}
{"id": "C48", "title": "End-to-end guarantees for regular programs", "statement": "Let the options pass validation and let every program handed to the solver consist of atoms of the registered grammar (and of other theories), where conditional elements have no constant part, operands of &diff are not negated, constraints without variables are equalities, and a variable that is fixed by an equality on its own has no inequality on its own. Then in every state of every multi-shot, multi-threaded session: every callback returns without undefined behaviour or exception; a state accepted without conflict reports values that satisfy all true theory atoms of the program text and the value of the stated objective; without global optimization a conflict is raised exactly if the true atoms have no solution and no clause excludes a solution of the program; a check of a total assignment that adds no clause leaves the optimum of the stated objective (or reports unbounded exactly if it is); undo restores the bounds and values.", "quantifier": "all validated option settings, all such programs in any number of shots, both arithmetic libraries, any number of threads, all histories of callbacks clingo may make", "why_tests_cant": "programs, histories and shots are unbounded; the guarantee composes parser, grammar, options and solver", "anchors": ["libclingo-lpx/src/clingo-lpx.cc: clingolpx_register, clingolpx_validate_options", "libclingo-lpx/src/parsing.cc: evaluate_theory", "libclingo-lpx/src/solving.cc: Propagator, Solver"]}
{"id": "C49", "title": "The built-in self checks never fail", "statement": "In a build with CLINGOLPX_CROSSCHECK and without NDEBUG no assertion of the solver and tableau ever fails: init, propagate, check, undo and on_model pass all their assertions (the values satisfy the tableau, non-basic variables are within bounds, violated basic variables are queued, a state reported satisfiable, optimal, unbounded or restored by undo is within all bounds, all indices are in range) and produce exactly the state and the clauses of the release build.", "quantifier": "all problems, options, numbers of threads, shots and histories of callbacks; both value types", "why_tests_cant": "the assertions are evaluated on states reached by unbounded histories; a passing test run says nothing about other problems and histories", "anchors": ["libclingo-lpx/src/util.hh: assert_extra", "libclingo-lpx/src/solving.cc: check_tableau_, check_basic_, check_non_basic_, check_solution_, pivot_, select_, solve, undo, optimize, prepare", "libclingo-lpx/src/tableau.cc: Tableau::pivot"]}
{"id": "C50", "title": "The propagator watches every literal its answers depend on, and nothing else", "statement": "In every state of a session every solver thread watches the literal of every theory constraint of the current program, and otherwise only literals the propagator itself created for bounds on the objective. Literals that are not watched have no influence. So if clingo delivers the watched literals that become true, then at a total assignment the reported values satisfy all true theory atoms, conflicts arise exactly if the true atoms have no solution, and the optimum is the optimum over the solutions of the true atoms.", "quantifier": "all options, problems, numbers of threads and shots, all histories of callbacks (for the watches); the regular programs of C48 (for the answers)", "why_tests_cant": "a forgotten watch shows only for the particular assignment in which the missing literal matters; histories are unbounded", "anchors": ["libclingo-lpx/src/solving.cc: Propagator::init (add_watch), Solver::assert_bound_ (add_watch), Propagator::check, Propagator::propagate"]}
{"id": "C51", "title": "Configuration is fixed at registration", "statement": "Create a theory object, set options in any order, register it once with validated options, then run any number of shots. The theory then behaves as the options at the time of registration say: everything C48 promises holds for exactly these options, and changing options after the registration changes neither the result nor the effect of any later callback or query. A theory object serves one control: if it is registered again, callbacks of the first control are undefined behaviour.", "quantifier": "all sequences of calls of the C interface (settings calls interleaved anywhere), all option values, programs and histories of callbacks", "why_tests_cant": "unbounded interleavings of configuration calls, shots and callbacks; a setting read through a stale reference would show only for particular orders", "anchors": ["libclingo-lpx/clingo-lpx.h: clingolpx_configure, clingolpx_register", "libclingo-lpx/src/clingo-lpx.cc: clingolpx_register, LPXPropagatorFacade, clingolpx_theory"]}
{"id": "C52", "title": "No C++ exception leaves the C interface, and legal calls return", "statement": "Functions of the C interface and the callbacks given to clingo never let a C++ exception out; errors are reported as a return value of false. Callbacks and queries that are legal in the current state (known thread, index with a value, registered theory) return without error and without undefined behaviour. A malformed program makes init return false.", "quantifier": "all calls in all states, legal or not (for exceptions); all uses of the interface as in C51 with regular programs (for returning)", "why_tests_cant": "ranges over all states the object can be in and all arguments", "anchors": ["libclingo-lpx/src/clingo-lpx.cc: CLINGOLPX_TRY, CLINGOLPX_CATCH, init, propagate, undo, check, decide, parse_objective, clingolpx_lookup_symbol, clingolpx_get_symbol, clingolpx_assignment_*, clingolpx_on_model, clingolpx_on_statistics"]}
{"id": "C53", "title": "What the application prints is a solution of the program", "statement": "Whenever the application prints an answer, the values printed in the Assignment line, read as numbers with e standing for an arbitrarily small positive number, satisfy all theory atoms that are true, whatever is assumed for variables that are not printed, and the value in the Optimization line is the value of the objective for them. If the answer is printed after a check of a total assignment without conflict, an objective marked bounded is the best value any solution of the true atoms has (its supremum, reached for every small e), and one marked unbounded means that there are solutions beyond every number.", "quantifier": "all programs as in C48, all uses of the C interface, all answers of the host, all readings of the printed text, all truth assignments", "why_tests_cant": "relates program text and printed text through parsing, simplex, epsilon arithmetic, iteration and printing for all programs and search histories", "anchors": ["app/src/main.cc: App::print_model, App::on_model", "libclingo-lpx/src/clingo-lpx.cc: extend_model", "libclingo-lpx/src/number.hh: operator<<", "libclingo-lpx/src/parsing.cc: evaluate_theory"]}
{"id": "C54", "title": "The command line takes effect as given", "statement": "The application starts iff every option given is a documented flag or a documented key with one of its documented values (case-insensitive), clingo accepts the theory, and an infinitesimal objective step is only given together with --strict. Then the theory is registered with exactly the settings on the command line, the documented default for every option not given, independent of the order of the options; any other command line ends the program before anything is registered. All statements of the input files reach clingo unchanged, once and in order.", "quantifier": "all command lines (lists of options with distinct keys, arbitrary value texts), all orders, all replies of clingo, all programs", "why_tests_cant": "option values are arbitrary strings and options combine freely; order independence ranges over all permutations", "anchors": ["app/src/main.cc: App::App, App::main, App::register_options, App::validate_options", "app/lib/src/app.cc: Rewriter", "libpyclingo-lpx/clingolpx/__main__.py: ClingoLPXApp", "libclingo-lpx/src/clingo-lpx.cc: clingolpx_register_options, clingolpx_validate_options, parse_select, parse_propagate, parse_store, parse_objective"]}
{"id": "C55", "title": "Checked conversions are exact", "statement": "A checked numeric conversion between two integer types returns the value if the target type can represent it and raises an overflow error otherwise; in particular the numbering of auxiliary variables of conditional elements never wraps around.", "quantifier": "all pairs of integer types (any signedness, any width, any width of int), all values of the source type", "why_tests_cant": "ranges over all pairs of types and all values; the comparisons go through integral promotions and conversions that can change values", "anchors": ["libclingo-lpx/src/util.hh: safe_cast, sc_check", "libclingo-lpx/src/parsing.cc: parse_sum_elems"]}
{"id": "C56", "title": "The answers of a finished search", "statement": "Let the options pass validation and the programs be those of C48 (conditional elements without constant part, and so on). When clingo reports that the search is exhausted: without global optimization every answer is an assignment of the program whose theory atoms have a solution, and every other assignment of the program has none; with global optimization, if there is no answer then no assignment has a solution, and otherwise the last answer is optimal - the reported value is the value of one of its solutions and no solution of any assignment of the program is better by the step or more (with the default step: no solution is better at all) - or, if it is reported as unbounded, the last assignment has solutions beyond every number. Every optimum is listed: an assignment of the program that is not among the answers has no solution that reaches the last value plus the step (with the default step: is strictly worse), and its objective is bounded.", "quantifier": "all validated option settings, all such programs in any number of shots, any number of threads, all schedules of the callbacks clingo may make, all numbers of answers", "why_tests_cant": "a claim about all assignments of the program and all their solutions, at the end of every possible search", "anchors": ["libclingo-lpx/src/solving.cc: Propagator::check, integrate_objective, on_model, Solver::optimize, discard_bounded", "libclingo-lpx/src/parsing.cc: evaluate_theory", "libclingo-lpx/src/clingo-lpx.cc: clingolpx_prepare, clingolpx_on_model"]}
{"id": "C57", "title": "Threads do not influence one another", "statement": "A callback on one thread changes nothing that the API reports for another thread: symbols, indices, values, objective, decisions, assigned literals and conflict status stay the same. From any point of a session on, what a thread reports, and the clauses it adds, are what they would be if clingo made only the callbacks on that thread with the same arguments and replies; the only exception are models reported by other threads while optimizing globally.", "quantifier": "all options, programs and numbers of shots and threads, all interleavings of callbacks, all replies of clingo (also in sessions affected by the bug of C05)", "why_tests_cant": "ranges over all interleavings; a shared buffer or counter would only show in particular schedules", "anchors": ["libclingo-lpx/src/solving.cc: Propagator::check, propagate, undo, on_model, decide, get_value, get_objective", "libclingo-lpx/src/solving.hh: Propagator::slvs_, facts_, facts_offset_, objective_state_"]}
{"id": "C58", "title": "Bound propagation misses nothing a row implies", "statement": "With propagate-bounds=full, when a call of propagate reports no conflict then for every row of the tableau and every constraint on its basic variable: if the row and the bounds in force on its non-basic variables exclude the constraint, then during the call either clingo answered that the literal of the constraint is already false, or a clause was added that consists of the negated literal and negations of literals of bounds in force on variables of that row. With propagate-bounds=changed the same holds for every row whose basic variable, or its value, changed in the call, and for all rows in the first call after init; with propagate-bounds=none no clause other than a conflict is added. Every constraint of the program that is not void or already false is a bound on some variable, so none is left out.", "quantifier": "all programs, options, sessions and threads, all rows and constraints, all replies of clingo", "why_tests_cant": "completeness of propagation: a test shows single derived literals, not that no implied literal is missed in any state the simplex method can reach", "anchors": ["libclingo-lpx/src/solving.cc: Solver::propagate_, enqueue_, update_, pivot_, Prepare", "libclingo-lpx/src/solving.hh: Solver::propagate_set_, Variable::in_propagate_set"]}
{"id": "C59", "title": "Every clause is violated or tells clingo something new", "statement": "A call of propagate adds either exactly one conflict clause, all of whose literals are false under the literals clingo delivered and at least one of which became false with this very call, and then reports failure; or clauses whose literals are all false except the last one, which clingo answered not to be true when the clause was built. A call of check does the same for the facts and may in addition, only with global optimization, add at most two unit clauses over the literals it created itself. So no clause repeats what clingo already knows, and clingo cannot continue unchanged after a clause.", "quantifier": "all programs, options, sessions, threads, delivered literals and replies of clingo", "why_tests_cant": "a claim about every clause of every call in every state the search can reach", "anchors": ["libclingo-lpx/src/solving.cc: Solver::solve, Solver::propagate_, Solver::select_, Solver::update_bound_, Solver::assert_bound_, Propagator::propagate, Propagator::check"]}
{"id": "C60", "title": "A written constraint determines the constraint", "statement": "The text a constraint is written as (stream output of Inequality, Term and Relation) can be read back in exactly one way: as the terms, the relation and the right-hand side of the constraint, with all coefficients exact. Two constraints have the same text only if they agree in all of these. Needed: no variable's text starts with a digit or minus (numbers are never variables) and blanks in it are quoted.", "quantifier": "all constraints, any number of terms, all rational coefficients and right-hand sides, all five relations", "why_tests_cant": "infinitely many constraints; a test compares a few texts", "anchors": ["libclingo-lpx/src/problem.cc: operator<<(Relation), operator<<(Term), operator<<(Inequality)", "libclingo-lpx/src/problem.hh"]}
{"id": "C61", "title": "The answers of the C interface", "statement": "In every state of every use of the C interface with one registration: each query has one answer and changes nothing; lookup_symbol and get_symbol are inverse to each other, and every variable of the program has an index; assignment_has_value is true exactly for these indices; the begin/next loop visits the indices of the variables that are not numbers, in increasing order, and ends; assignment_get_value returns a number for each. When a model may be reported in a thread, whatever is assigned to the variables that agrees with the texts returned for that thread solves the program (for every small enough epsilon). decide returns the literal or its complement, according to the select option and the current values. on_model gives clingo, for each variable that is not a number, the text get_value returns (and at most one objective value) and does not change any answer; the accumulated statistics grow by the work of all threads.", "quantifier": "all programs of the grammar, settings, numbers of threads, shots, sequences of legal calls, symbols, indices and threads; both kinds of numbers", "why_tests_cant": "programs, histories and indices are unbounded; a test reads a few values of a few models", "anchors": ["libclingo-lpx/src/clingo-lpx.cc: clingolpx_lookup_symbol, clingolpx_get_symbol, clingolpx_assignment_begin, clingolpx_assignment_next, clingolpx_assignment_has_value, clingolpx_assignment_get_value, clingolpx_on_statistics, clingolpx_on_model, decide, LPXPropagatorFacade", "libclingo-lpx/clingo-lpx.h"]}
{"id": "C62", "title": "The last answer printed is the optimum of the program", "statement": "Let clingo, the application and the user make any calls of the C interface: settings, one registration with validated settings, shots of programs as in C48, and any legal calls, until clingo reports that the search of the current shot is exhausted. The answers are the symbols clingolpx_on_model added after checks of total assignments without conflict, printed as in C53. Then every answer printed can be read as a solution: its assignment is one of the program, the numbers printed satisfy the theory atoms (e stands for an arbitrarily small positive number), and the objective printed is their value. Without global optimization, an assignment of the program that was not answered has no solution. With --objective=global[,step] and an objective: without answers no assignment has a solution; otherwise the last answer printed has an Optimization line with a value. If the value is marked bounded, it is reached by a solution of that assignment, no solution of any assignment of the program is better by the step or more (with step 0: better at all), and solutions of assignments that were not answered do not reach the value plus the step. If it is marked unbounded, that assignment has solutions beyond every number.", "quantifier": "all validated settings with a step that is not negative, all programs as in C48 in any number of shots, any number of threads, all sequences of calls and schedules of callbacks, all truth assignments and solutions, all readings of the printed text", "why_tests_cant": "relates the calls of an unbounded search and the text printed at its end to all solutions of all assignments of the program", "anchors": ["libclingo-lpx/src/clingo-lpx.cc: clingolpx_create, clingolpx_configure, clingolpx_register, init, propagate, check, undo, clingolpx_on_model, extend_model", "libclingo-lpx/src/solving.cc: Propagator::check, integrate_objective, on_model, Solver::optimize, discard_bounded", "libclingo-lpx/src/parsing.cc: evaluate_theory", "app/src/main.cc: App::print_model"]}
{"id": "C63", "title": "Clauses only mention literals of constraints", "statement": "In every session through the C interface, whatever functions are called in whatever order, on whatever literals, assignments and threads, legal or not, as long as they return: every clause that the current propagator has handed to clingo is nonempty and consists of negations of literals of constraints it has been given, that is, of the solver literals of &sum, &diff and &dom atoms and of the literals, and their negations, of the conditions of conditional elements of &sum, &minimize and &maximize. Only with a global objective there are also negations of literals obtained from add_literal, and unit clauses that assert such a literal. In particular a literal that belongs to no constraint never appears, whatever clingo propagates, and a program without constraints and without a global objective gets no clause at all.", "quantifier": "all sequences of calls of the C interface with all arguments (settings, registrations, inits with any theory atoms, any number of threads, any replies of clingo and any order of std::sort, propagate, check, undo, decide, on_model, queries), both number types, without assumptions on clingo", "why_tests_cant": "ranges over all sequences of calls, including those clingo never makes", "anchors": ["libclingo-lpx/src/clingo-lpx.cc: init, propagate, check, undo, clingolpx_on_model", "libclingo-lpx/src/parsing.cc: evaluate_theory, parse_sum_elems", "libclingo-lpx/src/solving.cc: Solver::solve, update_bound_, select_, propagate_, prepare, assert_bound_, integrate_objective, discard_bounded, Bound::conflicts"]}
{"id": "C64", "title": "The statistics count clauses of bound propagation", "statement": "Let the numbers of a theory object be what clingolpx_on_statistics adds to the accumulated \"Pivots\" and \"Bounds propagated\". They do not depend on the values that are already there. A successful init sets them to 0. In every other call of the C interface that does not replace the object, whatever its arguments and the state, neither decreases, and the bounds increase by at most the number of clauses handed to clingo during the call, and not at all with propagate-bounds none. In every call but a check, and in a check without a global objective, the increase is exactly the number of clauses handed over during the call, unless this is a single clause, a conflict, which may not be counted. So in every session the bounds counted never exceed the clauses handed over by the object.", "quantifier": "all sequences of calls of the C interface with all arguments, any number of threads, both number types, all replies of clingo, all values of the accumulated statistics", "why_tests_cant": "ranges over all sequences of calls and all states", "anchors": ["libclingo-lpx/src/solving.cc: Solver::propagate_, pivot_, statistics, Propagator::on_statistics, Solver::prepare", "libclingo-lpx/src/clingo-lpx.cc: clingolpx_on_statistics, init, propagate, check, undo"]}
{"id": "C65", "title": "clingolpx_version with any pointers", "statement": "clingolpx_version can be called with any combination of null pointers and pointers to integers, equal or not: its behaviour is defined, nothing but the integers pointed to changes, each of them receives its number, and if pointers are equal the last one (patch before minor before major) decides. With three different integers the version text of the application is major.minor.patch.", "quantifier": "all pointers (null, equal or different) and all memories", "why_tests_cant": "ranges over all pointers and memories", "anchors": ["libclingo-lpx/src/clingo-lpx.cc: clingolpx_version", "libclingo-lpx/clingo-lpx.h: CLINGOLPX_VERSION_MAJOR, CLINGOLPX_VERSION_MINOR, CLINGOLPX_VERSION_REVISION, CLINGOLPX_VERSION", "app/src/main.cc: App::version"]}
