# Formal model of clingo-lpx in Rocq (Coq 8.16.1)

## 1. Shape of the development

All files are in `rocq/theories/` (logical name `Verif`).  To judge the claims read, in this order, the *specification*
files, the statements in the `Props_*.v` files, and, for the faithfulness of the model, the *model* files next to the C++
sources.  Everything else is proof.

| role | files | content |
|---|---|---|
| specification | `Spec.v` | linear expressions, constraints, satisfaction over the rationals and over rationals with epsilon, entailment of clauses |
| | `ParseSpec.v` | meaning of theory terms and atoms, independent of the parser |
| | `World.v` | callbacks of clingo (`event`), what clingo guarantees (`adm`), sessions of any number of shots (`reach`), `eq_safe` |
| | `Observe.v` | what a user sees: `api_value`, accepted, blocked, assigned literals |
| model | `Num.v` | Integer = `Z`, Rational = `Qc`, RationalQ = pairs, class `Value` (template parameter of `Solver<Value>`), result monad `res` (`Ok`, `UB`, `Exn`, `Fuel`) |
| | `Tableau.v` | tableau.hh/.cc |
| | `Backend.v` | tableau.cc again, over the division functions of number_flint.hh and number_imath.hh |
| | `Wrappers.v` | number_flint.hh, number_imath.hh: classes Integer and Rational, every overload as library calls on memory cells |
| | `Solver.v` | solving.cc: Bound, Variable, Prepare, Solver |
| | `Propagator.v` | solving.cc: ObjectiveState, check, Propagator |
| | `RationalQ.v` | number.hh operators |
| | `Parsing.v` | parsing.hh/.cc, problem.hh |
| | `Api.v` | clingo-lpx.cc options/configure/validate/facade, printing of numbers, compare, on_statistics |
| | `Grammar.v` | parsing.hh THEORY and THEORY_Q, clingolpx_register; clingo's precedence parser for theory terms (restated) |
| | `Problem.v` | problem.cc: operator<< of relations, terms and constraints |
| | `Main.v` | main.cc and `__main__.py`: print_model |
| | `App.v` | main.cc, app.cc and `__main__.py`: from the options to the registered theory and the loaded statements |
| | `Cast.v` | util.hh: safe_cast, with C++'s integral promotions and conversions |
| | `Checks.v` | solving.cc, tableau.cc with `assert` and `assert_extra` (the CLINGOLPX_CROSSCHECK build): check_tableau_, check_basic_, check_non_basic_, check_solution_ and every function with its assertions |
| | `Watch.v` | solving.cc: the watches requested by Propagator::init and Solver::assert_bound_ |
| | `Lifecycle.v` | clingo-lpx.cc: the extern "C" functions and callbacks as calls on a theory object, with CLINGOLPX_TRY/CATCH, null and deleted objects |
| | `Race.v` | the callbacks as sequences of memory accesses and lock operations |
| properties | `Props_*.v`, `Examples.v` | theorems `Cnn_...` named after `properties.jsonl`, examples that meet their hypotheses |
| proofs | all others | invariants, Bland's rule, refinement |

Undefined behaviour (index out of range, missing cell, null bound, `back()` of an empty vector, division by zero) is an
explicit result `UB` of the model, so "no UB" is a theorem and not an artefact of totalisation; `Exn` is a C++ exception.
Loops without a static bound (`solve`, `optimize`) take fuel; running out of fuel is a separate result `Fuel`, and
termination is the theorem that an explicit amount of fuel is always enough.

Where reading the code showed that a property is *false*, the development contains a theorem with suffix `_refuted`
(a concrete run of the model that violates the English claim) and a theorem with suffix `_partial` for the largest
condition found under which the property holds.

## 2. Properties: what is modelled and how it is proved

| id | how |
|---|---|
| C01 | sessions = init + any admissible history on any thread, any number of shots. Invariant (`Live`): tableau equations hold, bounds of a variable are the tightest bounds of assigned literals, violated basic variables are queued, trails lead back to the state before each level. A call that ends without conflict leaves values satisfying all bounds; `Prepare.v` relates bounds and rows to the constraints, `Props_Program.v` to the program text. `eq_safe` excludes the equality bug (section 5), without it refuted. |
| C02 | `select_` conflicts: Farkas argument on the row; `update_bound_` conflicts: two bounds. Sound for every assignment of rationals. Same restriction. |
| C03 | interval arithmetic over a row, over the invariant. Same restriction. |
| C04 | `Bound::conflicts` against joint satisfiability over the rationals, clauses added by init sound and complete. |
| C05 | trails: undo restores the snapshot taken when the level was entered. Restricted; refuted in general. |
| C06 | Bland's rule (`Bland.v`): a pigeonhole argument on bases and a largest-index argument; a second version (`Weak.v`, `WeakHist.v`, `WeakReach.v`) needs only the row equations, hence holds for every history including those that run into the equality bug. Bound 8^n on iterations. |
| C07 | C01 + C02 + C06. Restricted; refuted in general. |
| C08, C09 | exit conditions of `optimize`. For the solver alone from every feasible state (`Props_Optimize.v`), for sessions restricted. |
| C10 | Bland's rule for the bounded-variable primal simplex (bound 4^n), ratio test keeps bounds, objective monotone; from every feasible state. |
| C11-C13 | functional specification of the sparse tableau with lazily cleaned columns, over every sequence of operations. |
| C14 | no callback in a reachable state returns `UB` or `Exn`. Restricted; refuted in general. |
| C15 | existence of e0 by induction over the finite set; converse by embedding. |
| C16 | every operator of number.hh against the order "eventually for small e". |
| C17, C18, C23 | parser output against the denotation of terms; strings read as decimals. |
| C19, C20, C21, C22 | inequalities produced against the meaning of the atom; refuted for negated operands (C19, C20) and for conditional constants (C21, C22). |
| C24 | empty rows: the code inverts the test; refuted, true for `=`. |
| C25 | bounds equivalent to constraints, both directions, including programs. |
| C26 | all sequences of `update`/`value`; each is one critical section of a mutex (also proved at the level of accesses in `RaceProofs.v`). |
| C27 | clauses added by global optimization exclude only what the property says, over sessions. |
| C28 | loops of the facade over the symbol vector; `gather_vars` over several shots. |
| C29 | `adjust`/`decide`, over every session (`reach_any`, WeakReach.v/ObserveWeak.v). |
| C30-C32 | option parsers, configure, validate; `Props_Settings.v`: the same through the C interface (answers of the calls, the theory left behind), sequences of configure calls. |
| C33 | `on_statistics`; refuted for the step statistics with several threads. |
| C34 | store_sat_assignment over the trail invariant. |
| C35 | facts over shots and threads. |
| C36 | interleavings of accesses; one race found and proved to be the only one; otherwise every interleaving is equivalent to a sequence of atomic callbacks, which justifies `World.v`. |
| C37 | printers to strings, injective. |
| C38 | FLINT (raw word) and imath comparison. |
| C39 | result type of the parser distinguishes exceptions from aborts. |
| C40 | rows of the tableau hold for the current values in every session (`glimpse`, ObserveWeak.v), and the objective variable is defined by a row. |
| C41 | invariant of the shared generation counter and the asserted bounds (`Progress.v`), kept by every callback of every session; composed with C01/C26 for the values. After an unbounded report bounded answers are excluded (`Props_Unbounded.v`): the clause added by the check is a unit whose literal is bound to `objective >= v + 1`, and the bounds of a thread are never dropped. |
| C42 | corollary of clause soundness; the literals of asserted bounds are new literals (tracked in `history`), so a truth assignment can be extended by making them true. |
| C43 | `Backend.v`: the tableau functions over an abstract library whose division is arbitrary unless exact; refinement to `Tableau.v`. |
| C44 | C07 and the exact form of C08 (`C08_exact_optimum_partial`) applied to two sessions. |
| C45 | `Wrappers.v`: store of cells, weakest-precondition style lemmas per form (copy, move, assign, temporary), then all overloads by cases. |
| C46 | `Grammar.v`: the two grammars as data, clingo's precedence parser; correctness of the parser against the conventional context-free grammar by an invariant on its stack; induction over terms and programs for what is let through. |
| C47 | `Main.v`: the two print loops over the symbols extend_model adds (C28), induction over the sorted list. |
| C48 | C01, C02, C05, C06, C07, C08, C14 composed with C46: conditions on the text of the programs imply `shot_ok`, `step_ok` and `eq_safe` for every history. |
| C49 | `ChecksProofs.v`: each function with assertions equals the one without, under the invariants of C01 and C10; sessions by induction. Restricted to histories without the equality bug (refuted otherwise); init and the row equations for all histories. |
| C50 | watch lists as additional output of init and check; invariant (`WL` in `Props_Watch.v`) over every session, the equality bug included: every bound's literal is on the list of its thread. Composed with C48 for the answers. |
| C51 | the C interface as a transition system (`api_call`); invariant (`in_use` in `Props_Lifecycle.v`) over all uses: the registered object carries the options of the registration and its state is a session of C48. Reconfiguration: the outcome of every other call does not depend on the settings. |
| C52 | how each call ends (returns, throws, undefined) is part of the model; case analysis over all calls and states for exceptions, the invariant of C51 for legal calls. |
| C53 | composition of C47 (text of an answer), C37 (text determines the number), C28 (every variable of a constraint is printed or auxiliary) and C48/C51: any reading of the text agrees with the API on all variables that occur in constraints, so C21/C22 apply. The symbols printed are those `clingolpx_on_model` hands to Model::extend (answer `Extended` of `api_call`). |
| C54 | `App.v` on top of the C interface of C51; an accepted option sets one field, two accepted options with different keys commute, so induction over permutations; the value of a field is that of the option moved to the end. |
| C55 | integer types as signedness and width, conversions modulo 2^width; each comparison of `sc_check` shown to be the mathematical one, then arithmetic. |
| C56 | sessions of C48 extended by the list of answers; each answer is a reached report, so C41 and C42 apply to the clauses added so far; `regular` programs turn the internal rows into the meaning of the text (C48). A truth assignment of the program extends to the auxiliary literals because clingo's clauses on them are definitional. |
| C57 | every function that adds clauses is shown to depend on the clauses before the call only through clingo's replies (`relative`); then simulation between the run with all threads and the run with the callbacks of one thread. |
| C58 | Queue.v: the set of rows to be propagated and its flags; Track.v: every row changed by simplex is in the set; Complete.v: the two passes over a row compute the exact range of the basic variable (a sum of independent intervals), so a bound excluded by the row is outside it. |
| C59 | Props_Clauses.v: the conflict clause refutes bounds whose literals are delivered, while the bounds delivered before hold of the current values, so one literal is new; the clauses of bound propagation are built only for literals clingo says are not false. False with the equality bug of C05 (C59_refuted: a bound survives backtracking together with its literal). |
| C60 | the operators of problem.cc as functions to texts (`Problem.v`) against a grammar of readings (`Props_Problem.v`): what is written can be read, and by induction a text has one reading. |
| C61 | the queries of `Lifecycle.v` in the states `usage` reaches (C51's invariant); the specification (`interface` in `Props_Answers.v`) speaks only of what `api_call` returns. Inverse indices, the loop and values from C28's invariants; reading a solution off the texts from C47, C53 and the unambiguity of C37; what on_model hands over from C28_extend_model, decide from C29, statistics from C33 (step statistics of several threads are excluded there, bug 8 of section 5). |
| C62 | the search of C56 as a sequence of calls (`dialogue` in Props_Dialogue.v): each call has the effect of an event of World.v or none (C51's invariant), what on_model hands over depends only on the thread that reports, hence is what C53 speaks of after the check; the answers of `dialogue` and of C56's `search` correspond, and the conclusions are restated for the printed text (e arbitrarily small). |
| C63 | invariant over all calls (`api_call`, Lifecycle.v): all bounds stored in a solver (bound list, variables, trail) carry literals of a set K (Literals.v: one lemma per function of the solver, for every state); with K = literals of the constraints given so far, plus the added literals when a global objective is set, every clause built is a list of negations of K or the unit clause of an added literal. |
| C64 | one lemma per function of the solver for every state (Counters.v): only `prop_bounds` counts bounds, one for each clause it appends to the log, and only `pivot_` counts pivots; sums over the threads, then all calls of Lifecycle.v. |
| C65 | `clingolpx_version` as three conditional stores to a memory of integers (Props_Version.v). |

Concrete cases that meet the hypotheses stand beside the theorems (`Cnn_example...`, `Cnn_used`) or in `Props_Cases.v`.

`MANIFEST.json` lists for each property the theorems and what is missing.

## 3. Trusted base

* Coq 8.16.1 kernel; the whole development is also accepted by `coqchk`.
* `Print Assumptions` reports "Closed under the global context" for **every** theorem listed in `MANIFEST.json`: no axiom of
  any kind is used, neither from the standard library nor from another one.  (`coqchk` lists the seven constants of
  `Coq.ssr.ssrunder`, which std++ loads through ssreflect; they are the parameters of a module type instance of the
  standard distribution and no theorem here uses them.)
* Libraries: the standard library and std++ (definitions and lemmas only).
* The translation from C++ to Gallina.  Each definition cites file and lines.  It was exercised by seeded errors
  (`seeded/LOG.jsonl`), but no tool relates it to the C++ text.
* Specification files named above.

### Host protocol (assumptions about clingo, `adm` and `shot_ok` in World.v)

1. A thread's callbacks are called one after the other; `propagate` delivers literals that are true at the time of the
   call and whose level is the current decision level; the decision level is at least the topmost level that has delivered literals.
2. `Assignment::level` of a delivered literal is the level it was delivered at.
3. `undo` is called for the topmost level with delivered literals, level 0 is never undone (default undo mode).
4. After a call that added a clause which is false (conflict) the next call on that thread is `undo`.
5. `add_literal` returns a literal not in use.
6. `std::sort` returns a permutation (any permutation is allowed: the order of equal keys is arbitrary).
7. Replies of `add_clause`, `propagate`, `is_false`, `watch` are arbitrary.
8. `check` on a partial assignment is called on level 0 before the first decision if asked for (C35).
9. Only for C41: between the `check` that accepts a model and its report no other thread reports one (`orderly`; clingo repeats the check otherwise).
10. Conditions of theory elements are mapped to the same literals during one init call (C21).
11. Theory atoms conform to the registered grammar, or belong to another theory (Grammar.v, C46). This implies the conditions
    `shot_ok`, `step_ok` and `clean_atom` of the theorems about sessions (`C46_plain_shots`, `C46_strict_shots`).

The theorems hold for all values of everything else: number of threads, order and arguments of callbacks, constraints, objectives.

## 4. What is modelled, what is not

Modelled, function by function: tableau.hh/.cc (all but the debug printer); solving.cc/.hh (all but `debug_`, with and
without assertions and watches, and the statistics other than pivots and propagated bounds); number.hh (all operators of
RationalQ); number_flint.hh and number_imath.hh (the classes Integer and Rational); parsing.cc (all); parsing.hh (THEORY,
THEORY_Q); problem.hh, problem.cc; util.hh (safe_cast); clingo-lpx.cc (option parsing, configure, validation, facade: lookup, iteration,
values, extend_model, on_statistics; the extern "C" functions and callbacks with their error handling and the life time of the
theory object); main.cc, app.cc and the Python `__main__.py` (options, registration, loading of programs, printing of answers).

Simplifications, each repeated at the definition:

* Outside Wrappers.v, Integer and Rational are `Z` and `Qc`; C45 shows that the wrapper classes implement exactly that on
  top of the functions of FLINT/imath, whose documented behaviour is trusted.  The comparison functions (C38), integer division (C43),
  division by zero (C39) and the reading of strings (C23) are modelled as the wrappers call them.
* `std::vector`, `unordered_map`, `multimap` are lists; the iteration order of `bounds_.equal_range` is insertion order, `bounds_.find(lit)` is the first element of the group of `lit` (as libstdc++ and libc++ do), and `Bound const*` pointers into the map stay valid because nothing is ever erased from it.
* A callback is atomic in World.v; Race.v models the accesses inside and proves when that is justified.
* C strings are lists of characters without NUL, `tolower` is that of the C locale for all 256 characters (`iequals` passes a plain `char`; for negative values C leaves that undefined).
* The number-reading functions of imath/FLINT for `--objective=global,step` are a parameter (`rd`).
* Memory exhaustion and overflow of `size_t`/`uint32_t` counters do not occur.

Not modelled: clingo itself (grounding, search), the command line parser of clingo, the generated
Python binding, the arbitrary-precision libraries, the debug printers (`debug_`, `Tableau::debug`), the progress and
timing members of the statistics.

## 5. Deviations of the code from the properties (found while modelling)

1. **Equality trail bug**, solving.cc 190-204 (`update_lower`): for an equality the last trail entry is rewritten to restore
   *both* bounds to the same old bound.  `&dom{0..10}=x` on level 0 and `&sum{x}=3` above: undo leaves lower = upper = 10.  The
   rewritten entry may even belong to another variable, or the trail may be empty (undefined behaviour).  C01, C02, C03, C05, C07,
   C08, C09, C14, C27, C34, C35, C41, C42 `_refuted`.  `eq_safe` (World.v) is the condition under which it cannot happen; it only concerns constraints on a single variable.
2. **Constraints without variables** are decided the wrong way round for inequalities (C24).
3. **`&dom` dividing by zero** aborts with FLINT (C39).
4. **Conditional elements with a constant part** count the constant unconditionally or not at all (C21).
5. **`&diff`/`&dom` with a negated operand** (C19, C20).
6. **`clingolpx_configure`**: `objective` is parsed as Boolean into an optional, `propagate-bounds` passes a pointer to the wrong object, `store` reports `select` (C31).
7. **FLINT `compare(Integer, Integer)`** compares with the raw word (C38).
8. **`on_statistics`** overwrites the step values per thread (C33).
9. **`facts_`** is appended by thread 0 while other threads read it (C36).
10. **`--objective=global,x`** with x not a number: the exception of the number parser leaves the C++ code through clingo's C callback (C52).
11. A second **`clingolpx_register`** with the same theory object deletes the propagator that the first control still uses (C51; the header does not say that this is not allowed).

## 6. Testing the theorems

`seeded/LOG.jsonl`: one line per seeded error (definition, edit, claim, failed theorems).  Each edit was made in a scratch
copy of the model; the whole development was rebuilt and the theorems that no longer prove were recorded.  Lines whose edit starts
with "mechanical" come from a generator that proposes token-level edits (comparison, sign, constant, branch, dropped negation) of
every definition of the model files; survivors were inspected one by one and either are equivalent or led to a new theorem.
