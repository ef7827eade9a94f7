{
 "claims": [
  {
   "property": "C01",
   "status": "partial",
   "theorems": [
    "C01_values_satisfy_constraints_partial",
    "C01_all_constraints_partial",
    "C01_reported_values_satisfy_program_partial",
    "C01_refuted"
   ],
   "note": "Proved for every session in which no propagate call above level 0 runs into the equality trail bug of update_lower (solving.cc 190-204): eq_safe in World.v, a condition on the delivered equalities on a single variable and the other assigned constraints on just that variable; nothing is asked on level 0. Without it false, see the _refuted theorems in Props_Equality.v and Props_Equality2.v. Concrete session with such equalities: ex_equalities."
  },
  {
   "property": "C02",
   "status": "partial",
   "theorems": [
    "C02_clauses_sound_partial",
    "C02_clauses_sound_global_partial",
    "C02_no_solution_lost_partial",
    "C02_no_program_solution_lost_partial",
    "C02_refuted"
   ],
   "note": "Proved for every session in which no propagate call above level 0 runs into the equality trail bug of update_lower (solving.cc 190-204): eq_safe in World.v, a condition on the delivered equalities on a single variable and the other assigned constraints on just that variable; nothing is asked on level 0. Without it false, see the _refuted theorems in Props_Equality.v and Props_Equality2.v. Concrete session with such equalities: ex_equalities."
  },
  {
   "property": "C03",
   "status": "partial",
   "theorems": [
    "C03_propagated_clauses_valid_partial",
    "C03_refuted"
   ],
   "note": "Proved for every session in which no propagate call above level 0 runs into the equality trail bug of update_lower (solving.cc 190-204): eq_safe in World.v, a condition on the delivered equalities on a single variable and the other assigned constraints on just that variable; nothing is asked on level 0. Without it false, see the _refuted theorems in Props_Equality.v and Props_Equality2.v. Concrete session with such equalities: ex_equalities."
  },
  {
   "property": "C04",
   "status": "proved",
   "theorems": [
    "C04_conflicts_exact",
    "C04_conflicts_symmetric",
    "C04_static_clauses_sound",
    "C04_static_clauses_complete"
   ],
   "note": ""
  },
  {
   "property": "C05",
   "status": "partial",
   "theorems": [
    "C05_undo_restores_partial",
    "C05_refuted"
   ],
   "note": "Proved for every session in which no propagate call above level 0 runs into the equality trail bug of update_lower (solving.cc 190-204): eq_safe in World.v, a condition on the delivered equalities on a single variable and the other assigned constraints on just that variable; nothing is asked on level 0. Without it false, see the _refuted theorems in Props_Equality.v and Props_Equality2.v. Concrete session with such equalities: ex_equalities."
  },
  {
   "property": "C06",
   "status": "proved",
   "theorems": [
    "C06_propagate_terminates",
    "C06_check_terminates",
    "C06_undo_returns",
    "C06_bound",
    "C06_covers_damaged_states",
    "C06_covers_undefined",
    "C06_callbacks_terminate_partial"
   ],
   "note": "For every admissible history of every session, with no restriction on equalities: a propagate call (and a check on a partial assignment) makes at most 8^n iterations, n the number of variables of the solver including slack variables. A state damaged by the equality bug may end the call in undefined behaviour (back() of an empty vector); that is the UB outcome, shown to be reachable. C06_callbacks_terminate_partial covers all callbacks (including optimization) and excludes UB, but only for histories that avoid the bug."
  },
  {
   "property": "C07",
   "status": "partial",
   "theorems": [
    "C07_decides_satisfiability_partial",
    "C07_conflict_unsatisfiable_partial",
    "C07_conflict_unsatisfiable_global_partial",
    "C07_no_conflict_satisfiable_partial",
    "C07_decides_program_partial",
    "C07_refuted"
   ],
   "note": "Proved for every session in which no propagate call above level 0 runs into the equality trail bug of update_lower (solving.cc 190-204): eq_safe in World.v, a condition on the delivered equalities on a single variable and the other assigned constraints on just that variable; nothing is asked on level 0. Without it false, see the _refuted theorems in Props_Equality.v and Props_Equality2.v. Concrete session with such equalities: ex_equalities."
  },
  {
   "property": "C08",
   "status": "partial",
   "theorems": [
    "C08_optimum_partial",
    "C08_exact_optimum_partial",
    "C08_program_optimum_partial",
    "C08_program_example",
    "C08_program_example_optimum",
    "C08_optimum_from_every_feasible_state",
    "C08_refuted"
   ],
   "note": "Proved for every session in which no propagate call above level 0 runs into the equality trail bug of update_lower (solving.cc 190-204): eq_safe in World.v, a condition on the delivered equalities on a single variable and the other assigned constraints on just that variable; nothing is asked on level 0. Without it false, see the _refuted theorems in Props_Equality.v and Props_Equality2.v. Concrete session with such equalities: ex_equalities. C08_optimum_from_every_feasible_state: for the solver alone, in every feasible state, nothing is assumed about the session."
  },
  {
   "property": "C09",
   "status": "partial",
   "theorems": [
    "C09_unbounded_partial",
    "C08_program_optimum_partial",
    "C09_unbounded_from_every_feasible_state",
    "C09_refuted"
   ],
   "note": "Proved for every session in which no propagate call above level 0 runs into the equality trail bug of update_lower (solving.cc 190-204): eq_safe in World.v, a condition on the delivered equalities on a single variable and the other assigned constraints on just that variable; nothing is asked on level 0. Without it false, see the _refuted theorems in Props_Equality.v and Props_Equality2.v. Concrete session with such equalities: ex_equalities. C09_unbounded_from_every_feasible_state: for the solver alone, in every feasible state, nothing is assumed about the session."
  },
  {
   "property": "C10",
   "status": "proved",
   "theorems": [
    "C10_optimize_from_every_feasible_state",
    "C10_reachable_states_are_optimizable",
    "C10_optimize_keeps_feasible_partial"
   ],
   "note": "C10_optimize_from_every_feasible_state covers every well-formed feasible state of the solver, however it was reached. C10_optimize_keeps_feasible_partial is the consequence for the check callback in sessions (eq_safe)."
  },
  {
   "property": "C11",
   "status": "proved",
   "theorems": [
    "C11_pivot_preserves_solutions",
    "C11_unsafe_get_safe"
   ],
   "note": ""
  },
  {
   "property": "C12",
   "status": "proved",
   "theorems": [
    "C12_get_set",
    "C12_get_empty",
    "C12_size",
    "C12_empty"
   ],
   "note": ""
  },
  {
   "property": "C13",
   "status": "proved",
   "theorems": [
    "C13_update_row",
    "C13_update_col"
   ],
   "note": ""
  },
  {
   "property": "C14",
   "status": "partial",
   "theorems": [
    "C14_no_undefined_behaviour_partial",
    "C14_refuted"
   ],
   "note": "Proved for every session in which no propagate call above level 0 runs into the equality trail bug of update_lower (solving.cc 190-204): eq_safe in World.v, a condition on the delivered equalities on a single variable and the other assigned constraints on just that variable; nothing is asked on level 0. Without it false, see the _refuted theorems in Props_Equality.v and Props_Equality2.v. Concrete session with such equalities: ex_equalities."
  },
  {
   "property": "C15",
   "status": "proved",
   "theorems": [
    "C15_epsilon_faithful",
    "C15_assignments_faithful",
    "C15_epsilon_instances_satisfy_constraints_partial",
    "initialized_example"
   ],
   "note": "The last theorem is the consequence for sessions (eq_safe)."
  },
  {
   "property": "C16",
   "status": "proved",
   "theorems": [
    "C16_order_is_eventual",
    "C16_operators_agree",
    "C16_total_order",
    "C16_arithmetic",
    "C16_compatible",
    "C16_epsilon",
    "C16_solver_uses_these"
   ],
   "note": ""
  },
  {
   "property": "C17",
   "status": "proved",
   "theorems": [
    "C17_terms_denote",
    "C17_value_unique",
    "C17_accepted",
    "C17_rejected",
    "C17_programs",
    "C17_example",
    "C17_example_rejected"
   ],
   "note": ""
  },
  {
   "property": "C18",
   "status": "proved",
   "theorems": [
    "C18_normalization",
    "C18_programs",
    "C18_example"
   ],
   "note": ""
  },
  {
   "property": "C19",
   "status": "partial",
   "theorems": [
    "C19_dom_is_two_sums_partial",
    "C19_refuted"
   ],
   "note": "Missing: bounds with a negated operand, for which the claim is false (C19_refuted)."
  },
  {
   "property": "C20",
   "status": "partial",
   "theorems": [
    "C20_diff_is_sum_partial",
    "C20_refuted"
   ],
   "note": "Missing: differences with a negated operand, for which the claim is false (C20_refuted)."
  },
  {
   "property": "C21",
   "status": "partial",
   "theorems": [
    "C21_solutions_satisfy_atoms_partial",
    "C21_solutions_kept_partial",
    "C21_refuted"
   ],
   "note": "Missing: conditional elements with a constant part, for which the claim is false (C21_refuted)."
  },
  {
   "property": "C22",
   "status": "partial",
   "theorems": [
    "C22_objective_partial",
    "C22_constants_rejected_partial",
    "C22_refuted"
   ],
   "note": "Missing: conditional elements with a constant part, for which the claim is false (C22_refuted)."
  },
  {
   "property": "C23",
   "status": "proved",
   "theorems": [
    "C23_quoted_decimals",
    "C23_unique",
    "C23_others_are_no_numbers",
    "C23_example",
    "C23_example_string"
   ],
   "note": ""
  },
  {
   "property": "C24",
   "status": "partial",
   "theorems": [
    "C24_equalities_partial",
    "C24_refuted",
    "C24_inverted"
   ],
   "note": "Holds for equalities only; for inequalities without variables the code does the opposite (C24_refuted, C24_inverted)."
  },
  {
   "property": "C25",
   "status": "proved",
   "theorems": [
    "C25_single_variable",
    "C25_bounds_equivalent_to_constraints",
    "C25_programs_are_shots",
    "initialized_example"
   ],
   "note": ""
  },
  {
   "property": "C26",
   "status": "proved",
   "theorems": [
    "C26_shared_objective",
    "C26_poll_returns_best",
    "C26_changes",
    "C26_each_change_once",
    "C26_first_poll",
    "C26_reported_models_shared",
    "C26_example"
   ],
   "note": ""
  },
  {
   "property": "C27",
   "status": "partial",
   "theorems": [
    "C27_improving_solutions_kept_partial",
    "C27_unbounded_solutions_kept_partial",
    "C27_refuted"
   ],
   "note": "Proved for every session in which no propagate call above level 0 runs into the equality trail bug of update_lower (solving.cc 190-204): eq_safe in World.v, a condition on the delivered equalities on a single variable and the other assigned constraints on just that variable; nothing is asked on level 0. Without it false, see the _refuted theorems in Props_Equality.v and Props_Equality2.v. Concrete session with such equalities: ex_equalities."
  },
  {
   "property": "C28",
   "status": "proved",
   "theorems": [
    "C28_lookup_get",
    "C28_has_value",
    "C28_known",
    "C28_iteration",
    "C28_extend_model",
    "C28_indices_stable",
    "C28_example"
   ],
   "note": "In every session (no restriction on equalities). Which values are returned is the subject of C01."
  },
  {
   "property": "C29",
   "status": "proved",
   "theorems": [
    "C29_decide",
    "C29_only_sign"
   ],
   "note": "In every session (no restriction on equalities). A strict constraint counts as satisfied if it holds by a distance of at least epsilon, which is how the solver stores it (keptV); keptV_holds and holds_keptV relate this to plain satisfaction."
  },
  {
   "property": "C30",
   "status": "proved",
   "theorems": [
    "C30_select",
    "C30_propagate_bounds",
    "C30_store",
    "C30_booleans",
    "C30_objective"
   ],
   "note": ""
  },
  {
   "property": "C31",
   "status": "partial",
   "theorems": [
    "C31_configure_partial",
    "C31_as_command_line_partial",
    "C31_refuted",
    "C31_example",
    "C31_calls_partial",
    "C31_calls_as_command_line_partial",
    "C31_calls_as_flag_partial",
    "C31_calls_refuted",
    "C31_independent_partial",
    "C31_session_partial",
    "C31_calls_example"
   ],
   "note": "False for the keys objective and propagate-bounds, and the message for store names select (C31_refuted)."
  },
  {
   "property": "C32",
   "status": "proved",
   "theorems": [
    "C32_validate",
    "C32_valid_steps",
    "C14_no_undefined_behaviour_partial",
    "C32_calls",
    "C32_calls_example"
   ],
   "note": ""
  },
  {
   "property": "C33",
   "status": "partial",
   "theorems": [
    "C33_accumulated",
    "C33_step_partial",
    "C33_refuted"
   ],
   "note": "Step statistics with several threads are overwritten per thread: false (C33_refuted)."
  },
  {
   "property": "C34",
   "status": "partial",
   "theorems": [
    "C34_stored_values_satisfy_partial",
    "C34_refuted",
    "C34_example"
   ],
   "note": "Proved for every session in which no propagate call above level 0 runs into the equality trail bug of update_lower (solving.cc 190-204): eq_safe in World.v, a condition on the delivered equalities on a single variable and the other assigned constraints on just that variable; nothing is asked on level 0. Without it false, see the _refuted theorems in Props_Equality.v and Props_Equality2.v. Concrete session with such equalities: ex_equalities."
  },
  {
   "property": "C35",
   "status": "partial",
   "theorems": [
    "C35_facts_recorded",
    "C35_facts_kept",
    "C35_partial_checks",
    "C35_facts_enforced_partial",
    "C35_refuted",
    "C35_example"
   ],
   "note": "Proved for every session in which no propagate call above level 0 runs into the equality trail bug of update_lower (solving.cc 190-204): eq_safe in World.v, a condition on the delivered equalities on a single variable and the other assigned constraints on just that variable; nothing is asked on level 0. Without it false, see the _refuted theorems in Props_Equality.v and Props_Equality2.v. Concrete session with such equalities: ex_equalities."
  },
  {
   "property": "C36",
   "status": "partial",
   "theorems": [
    "C36_one_race_partial",
    "C36_first_shot_no_race",
    "C36_linearizable",
    "C36_concurrent_is_sequential",
    "C36_calls_complete",
    "C36_refuted"
   ],
   "note": "False: propagate on thread 0 appends to facts_ while check on another thread reads it (C36_refuted, second and later shots). C36_one_race_partial: there is no other race, in any execution; C36_first_shot_no_race: none without facts from earlier shots. C36_linearizable: apart from that the interleaved callbacks are equivalent to a sequence of callbacks, the model of the other theorems."
  },
  {
   "property": "C37",
   "status": "proved",
   "theorems": [
    "C37_text_unambiguous",
    "C37_printed_text",
    "C37_printed_rational",
    "C37_distinct"
   ],
   "note": ""
  },
  {
   "property": "C38",
   "status": "partial",
   "theorems": [
    "C38_imath",
    "C38_flint_partial",
    "C38_flint_word",
    "C38_refuted"
   ],
   "note": "False for FLINT's compare(Integer,Integer) (C38_refuted)."
  },
  {
   "property": "C39",
   "status": "partial",
   "theorems": [
    "C39_no_crash_imath",
    "C39_no_crash_flint_partial",
    "C39_malformed_rejected_partial",
    "C39_well_formed_accepted",
    "C39_refuted",
    "C39_example"
   ],
   "note": "False for &dom atoms dividing by zero with FLINT (C39_refuted)."
  },
  {
   "property": "C40",
   "status": "proved",
   "theorems": [
    "C40_objective_consistent"
   ],
   "note": "In every session (no restriction on equalities)."
  },
  {
   "property": "C41",
   "status": "partial",
   "theorems": [
    "C41_progress_partial",
    "C41_unbounded_then_unbounded",
    "C41_reports_improve_partial",
    "C41_number_of_reports",
    "C41_bounded_excluded_partial",
    "C41_bounded_excluded_used",
    "C41_refuted"
   ],
   "note": "False in general because of the equality bug: C41_refuted. Proved for every session without the equality bug of the trail (C05); the part about unbounded objectives for every session. Missing: runs in which two threads accept models concurrently before either reports. clingo's solver repeats the check of the second under its model lock, which is an assumption about clingo here (orderly). C41_bounded_excluded_partial: once an unbounded model was reported, a check whose objective v is bounded adds the unit clause of a literal, and every later accepted assignment of that thread with this literal has objective at least v + 1 (so the same assignment is not accepted again); C41_bounded_excluded_used shows its hypotheses met by a run."
  },
  {
   "property": "C42",
   "status": "partial",
   "theorems": [
    "C42_optimum_when_exhausted_partial",
    "C42_no_unbounded_when_exhausted_partial",
    "C42_no_solution_when_exhausted_partial",
    "C42_refuted"
   ],
   "note": "False in general because of the equality bug: C42_refuted. Proved for sessions without the equality bug; constraints without variables only with '=' (C24)."
  },
  {
   "property": "C43",
   "status": "proved",
   "theorems": [
    "C43_only_exact_divisions",
    "C43_backends_agree",
    "C43_solver_calls"
   ],
   "note": "Division of the libraries is modelled in Backend.v; all other operations of the libraries are trusted to be exact."
  },
  {
   "property": "C44",
   "status": "partial",
   "theorems": [
    "C44_same_verdict_partial",
    "C44_same_optimum_partial",
    "C44_strict_same_optimum_partial",
    "C44_used",
    "C44_refuted"
   ],
   "note": "Proved for every session in which no propagate call above level 0 runs into the equality trail bug of update_lower (solving.cc 190-204): eq_safe in World.v, a condition on the delivered equalities on a single variable and the other assigned constraints on just that variable; nothing is asked on level 0. Without it false, see the _refuted theorems in Props_Equality.v and Props_Equality2.v. Concrete session with such equalities: ex_equalities."
  },
  {
   "property": "C45",
   "status": "proved",
   "theorems": [
    "C45_rational_operators",
    "C45_division_by_zero",
    "C45_integer_operators",
    "C45_from_fraction",
    "C45_from_fraction_zero",
    "C45_rational_relations",
    "C45_integer_relations",
    "C45_rational_members",
    "C45_integer_members"
   ],
   "note": "The functions of FLINT and imath themselves are given by their documentation (Wrappers.v). The ordering of two Integers with FLINT is wrong and the subject of C38. Operands that overlap partially (x += x.num()) are not covered."
  },
  {
   "property": "C46",
   "status": "proved",
   "theorems": [
    "C46_conventional_reading",
    "C46_nonstrict_only",
    "C46_plain_shots",
    "C46_strict_shots",
    "C46_atoms_interpreted",
    "C46_other_theories_ignored",
    "C46_relations",
    "C46_decide_registered"
   ],
   "note": "clingo's parser of theory terms (operator precedence with the priorities and associativities of the grammar) and its lexical rules for identifiers and strings are restated in Grammar.v, not part of the repository. C46_plain_shots and C46_strict_shots also discharge the assumptions shot_ok, step_ok and clean_atom that the theorems about sessions make."
  },
  {
   "property": "C47",
   "status": "proved",
   "theorems": [
    "C47_printed_answer"
   ],
   "note": "The order of symbols and how clingo writes them are arbitrary parameters (the order compares functions of the same name argument by argument). The texts of values are those of C37. No other propagator adds theory symbols named __lpx or __lpx_objective. C47_example: the complete output for a concrete program."
  },
  {
   "property": "C48",
   "status": "proved",
   "theorems": [
    "C48_without_strict",
    "C48_with_strict",
    "C48_simple_programs_regular"
   ],
   "note": "The record guarantees in Props_EndToEnd.v lists what holds; regular lists the conditions on the program. C48_simple_programs_regular: programs whose &sum and &diff atoms use no '=' and no conditional elements are regular (up to constraints without variables and negated operands of &diff). C48_example: a regular program with conditional element, strict inequality and objective, run to its optimum."
  },
  {
   "property": "C49",
   "status": "partial",
   "theorems": [
    "C49_same_sessions",
    "C49_callbacks_partial",
    "C49_init",
    "C49_init_next",
    "C49_tableau",
    "C49_check_bounds",
    "C49_check_rows",
    "C49_example",
    "C49_refuted"
   ],
   "note": "False in general: after the equality bug the assertion in undo fails (C49_refuted; the release build continues). Proved for all histories that avoid it (eq_safe): both builds have the same sessions, every callback passes its assertions and ends in the same state. For all histories, the bug included: init passes its assertions and the row equations check_tableau_ tests hold between callbacks. C49_check_bounds, C49_check_rows: what the checks test."
  },
  {
   "property": "C50",
   "status": "proved",
   "theorems": [
    "C50_same_sessions",
    "C50_watched",
    "C50_unwatched_ignored",
    "C50_answers",
    "C50_optimum"
   ],
   "note": "Watch lists are added to the model in Watch.v; C50_same_sessions: the sessions are those of all other theorems. C50_answers and C50_optimum replace the hypothesis of C48 that literals of true constraints have been delivered by what clingo promises about watched literals (clingo_assignment). Watches of earlier shots are not counted. C50_example: a session that meets all hypotheses, with seven watched constraints."
  },
  {
   "property": "C51",
   "status": "proved",
   "theorems": [
    "C51_plain",
    "C51_strict",
    "C51_reconfigure",
    "C51_second_registration"
   ],
   "note": "usage: all sequences of calls of the C interface with one registration; C51_example shows one with options set before and after registering, a program with an objective and a search to the optimum. Programs are the regular ones of C48."
  },
  {
   "property": "C52",
   "status": "partial",
   "theorems": [
    "C52_never_escapes",
    "C52_refuted",
    "C52_plain_calls",
    "C52_strict_calls",
    "C52_plain_init",
    "C52_strict_init",
    "C52_unregistered"
   ],
   "note": "False for one call: the option parser for --objective throws through clingo (C52_refuted); no other call lets an exception out (C52_never_escapes, all states). Legal calls return: for regular programs. Exceptions of memory allocation are not modelled."
  },
  {
   "property": "C53",
   "status": "proved",
   "theorems": [
    "C53_plain",
    "C53_strict",
    "C53_plain_optimum",
    "C53_strict_optimum"
   ],
   "note": "For the programs of C48 (regular). text_of_answer, reading, optimal and no_optimum are the specification; C53_example shows a run that prints 'x=3+-1*e y=0' and 'Optimization: 3+-1*e [bounded]' and meets all hypotheses."
  },
  {
   "property": "C54",
   "status": "proved",
   "theorems": [
    "C54_accepted",
    "C54_effect",
    "C54_order",
    "C54_start",
    "C54_starts",
    "C54_refused",
    "C54_statements"
   ],
   "note": "For options with distinct keys (clingo refuses to set an option twice). A step of --objective that is not a number ends the program through an exception in clingo's callback, see C52. C54_example: a command line that meets the hypotheses, and three that are refused. The options handed over by clingo's own command line parser are the starting point."
  },
  {
   "property": "C55",
   "status": "proved",
   "theorems": [
    "C55_safe_cast",
    "C55_auxiliary"
   ],
   "note": "Types are a signedness and a width; conversions to signed types wrap (C++20, and what all compilers do before). C55_example: all combinations of signs at the boundaries."
  },
  {
   "property": "C56",
   "status": "proved",
   "theorems": [
    "C56_enumeration_plain",
    "C56_enumeration_strict",
    "C56_optimum_plain",
    "C56_optimum_strict",
    "C56_all_optima_plain",
    "C56_all_optima_strict",
    "C56_exact_optimum",
    "C56_example_optimum"
   ],
   "note": "Programs are those C48 calls regular (no false empty rows and no equality with two bounds, the real bugs of C01 and C24). An answer is a check on a total assignment that adds no clause, followed by on_model of that thread, with callbacks of other threads in between; `finished` is clingo's half of the claim: what is not an answer violates a clause of the propagator. `delivered` as in C41. C56_example: a search of two threads with three answers that meets all hypotheses; C56_example_optimum: the conclusion for it."
  },
  {
   "property": "C57",
   "status": "proved",
   "theorems": [
    "C57_untouched",
    "C57_alone"
   ],
   "note": "No restriction to programs without the equality bug (reach_any). looks_same lists every query of the API. Callbacks are atomic here; C36 proves when that is justified. C57_example: two threads with conflicts and backtracking."
  },
  {
   "property": "C58",
   "status": "proved",
   "theorems": [
    "C58_attached",
    "C58_full",
    "C58_changed",
    "C58_changed_first",
    "C58_none",
    "C58_consistent"
   ],
   "note": "row_excludes is semantic (no values that respect the tableau and the bounds in force on the row's variables satisfy the constraint); the theorems ask that the bounds in force on the row's variables do not contradict one another, which C58_consistent proves after every call without conflict for sessions without the equality bug of C05. C58_example: x >= 3 and y >= 0 exclude x + y <= 2, with the clause that is added."
  },
  {
   "property": "C59",
   "status": "partial",
   "theorems": [
    "C59_propagate_partial",
    "C59_check_partial",
    "C59_refuted",
    "C59_example_forcing",
    "C59_example_conflict"
   ],
   "note": "proved for all sessions without the equality bug of C05; missing: sessions with the bug, where the statement is false (C59_refuted: a clause two of whose literals are not false). Both kinds of clauses are shown to occur."
  },
  {
   "property": "C60",
   "status": "proved",
   "theorems": [
    "C60_written_reads",
    "C60_text_unambiguous",
    "C60_text_determines",
    "C60_example_names",
    "C60_example_texts",
    "C60_example_ambiguous"
   ],
   "note": "The text of a symbol is a parameter; its two properties (nameable, delimited) are hypotheses, C60_example_names gives an instance and C60_example_ambiguous shows that they are needed."
  },
  {
   "property": "C61",
   "status": "proved",
   "theorems": [
    "C61_plain_answers",
    "C61_strict_answers",
    "C61_plain_decide",
    "C61_strict_decide",
    "C61_plain_callback",
    "C61_strict_callback",
    "C61_plain_on_model",
    "C61_strict_on_model",
    "C61_destroy",
    "C61_example"
   ],
   "note": "The conclusion of C61_*_answers is the record interface, which only mentions what api_call returns (and the constraints, threads and counters of the state). Step statistics are claimed for one thread only (C33_refuted). C61_example: both values of the program of Props_Program.v are read off as 3-e and 0. The objective is not part of the query interface (it is printed, C53)."
  },
  {
   "property": "C62",
   "status": "proved",
   "theorems": [
    "C62_plain_answers",
    "C62_strict_answers",
    "C62_plain_exhaustive",
    "C62_strict_exhaustive",
    "C62_plain_optimum",
    "C62_strict_optimum",
    "C62_example"
   ],
   "note": "Programs are those C48 calls regular (see C56). `dialogue` follows the calls from the last init on; `over` is clingo's half of the claim, as `finished` in C56; `auxiliary`, `ignores` and `delivered` as in C56. An objective whose terms cancel (sh_obj = []) has no Optimization line and is excluded from the optimum. C62_example: from --objective=global to the third and last answer of two threads; the last symbols contain __lpx_objective(\"9\",1)."
  },
  {
   "property": "C63",
   "status": "proved",
   "theorems": [
    "C63_clauses",
    "C63_no_objective",
    "C63_silent",
    "C63_example"
   ],
   "note": "Nothing is assumed about clingo: the calls need not be legal, only return (a call that is undefined or throws ends the session). `sorts`: std::sort permutes. The sets of literals are those of all calls made so far. C63_example: a conflict with the literal of a condition, handed over twice; a search with --objective=global whose clauses mention the added literal in both signs; a search that hands over nothing."
  },
  {
   "property": "C64",
   "status": "proved",
   "theorems": [
    "C64_call",
    "C64_init",
    "C64_session",
    "C64_example"
   ],
   "note": "Nothing is assumed about clingo and the calls need not be legal, only return; C64_call holds in every state. Concerns the accumulated statistics (the step values are wrong for several threads, C33_refuted). C64_example: a session with 2 pivots; the same with propagate-bounds full has 2 clauses, both counted; a conflict after that is not counted."
  },
  {
   "property": "C65",
   "status": "proved",
   "theorems": [
    "C65_any_pointers",
    "C65_same_version",
    "C65_example"
   ],
   "note": "The numbers are those of the pinned commit. A pointer that is neither null nor points to an integer is undefined behaviour (C65_example)."
  }
 ]
}