# Formal model of clingcon: design

The source modelled is the clingcon library in `/repo/libclingcon` (pinned commit, read as text).
The model and proofs are in `rocq/theories` (logical name `Verif`, Coq 8.16.1, standard library only).

## 1. Method

* Each C++ function that is modelled becomes a total, computable Gallina function. The comment above it
  cites file and lines and says what is simplified.
* Exceptions and undefined behaviour are distinct outcomes (`Throw e`, `UB`), never default values.
  Machine arithmetic is written out (range test on every operation) wherever a property talks about
  overflow: `util.hh`, term reading, `simplify`, the disjoint propagator's `u`, the sum bounds. Elsewhere
  values are unbounded `Z`, and a separate range theorem says why this is harmless or where it is not.
* A literal is a non-zero `Z`, `1` is the true literal. A Boolean interpretation is `I : Z -> bool` on
  positive ids with `I 1 = true`; an integer assignment is `nu : var -> Z`.
* Clasp/clingo is the environment. It is an oracle: a Section variable mapping the log of everything
  sent to it to its answer (result of `add_clause`, new partial assignment, fresh literals). Theorems quantify
  over all oracles; where they need something from clingo (a fresh literal is fresh, values once assigned
  stay assigned during one call) it is a visible hypothesis.
* Specification (`Spec*.v`): relations on `I` and `nu` (`nu` satisfies `sum co*x <= b`, pairwise different,
  not overlapping, ...) that do not mention model helpers.
* "Sound clause" means: true in every `(I, nu)` that agrees with the order literals of the solver and satisfies
  the constraint. "Equivalent translation" means: an `(I, nu)` on the original vocabulary extends to the new
  literals satisfying all emitted clauses iff it satisfies the constraint.
* Property theorems are in `Prop_*.v`: only statements closed by `exact lemma`, each with
  `Print Assumptions`, and `Example`s showing the hypotheses are met by a concrete case.
* Names: `_partial` when part of the property is not covered (said in a comment), `_refuted` when the
  property is false of the faithful model (witness computed).

## 2. Plan per property

| id | model | proof |
|----|-------|-------|
| C01 | `safe_*`, `safe_cast`, `check_valid_value` (util.hh, base.hh) parametric in the type's range, every intermediate operation range-checked | case analysis: result `Ok r` iff exact result fits; never `UB` |
| C02 | `floordiv`, `ceildiv` via `std::div` (Z.quot/Z.rem) | floordiv = floor; `ceildiv` expected refuted (it increments on differing signs) |
| C03 | `IntervalSet` over a sorted association list for `std::map` | refinement to a set of integers, canonical form gives order independence |
| C04 | `midpoint` with unsigned wrap-around; the split loop | strict bounds, termination by measure |
| C05 | `simplify` (linear and non-linear) | value preservation for every assignment, distinctness, error iff |
| C06 | theory terms, `evaluate`, `parse_constraint_elem(s)` | induction over terms against a denotational polynomial semantics |
| C07, C08 | `normalize_constraint`, `ConstraintBuilder::add_constraint` with emitted constraints and clauses as log | extension iff relation, both directions |
| C09 | nonlinear `add_constraint` (Terms.v), `add_nonlinear` (Builder.v) | exact for at most one product in a head; dropped product, order of terms and wrong literal of the complement refuted |
| C10 | `parse_dom`, `Solver::add_dom` | clauses iff membership for non-empty domains; expected refuted for empty ones |
| C11, C12 | all of `ConstraintBuilder` (Builder.v) except the objective: `add_constraint`, `add_nonlinear`, `add_distinct`, `add_disjoint`, `add_dom`, `add_clause`, `add_literal` | solutions after a call = solutions before satisfying its meaning, up to new literals, by composition of such steps; then induction over sequences of calls (C08_run) |
| C13 | `VarState`, `get_literal`, `update_litmap_`, `litmap_` | invariant over request sequences; conservativity |
| C14 | `add_simple`, `update_literal` | clauses iff inequality |
| C15, C16 | `SumConstraintState::propagate`, `calculate_reason_`, `check_full` | entailment of each clause; violated implies conflict clause; check_full iff |
| C17, C18 | `clause_translate_`, `weight_translate_` | equivalence by induction on the elements |
| C19-C21 | distinct propagate/check_full/translate (Distinct.v, complete) | as for sums; domains and counts by induction; the bounds kept for elements are up to date in all reachable states (invariant along the stack of levels, FreshInv.v to FreshSearch.v); initially fixed elements and the literal on the top level refuted |
| C22, C23 | disjoint propagate/check_full (Disjoint.v, complete; 32-bit sums explicit; any sorting function) | counting argument for Hall intervals; sums stored with the intervals never exceed the length of later intervals; no overflow if the weights add up to at most 2^30, overflow and dropped literal refuted |
| C24, C25 | nonlinear propagate/check_full (Nonlin.v, complete; 128-bit and 32-bit ranges explicit) | least and greatest product at the corners of the box; clauses keep all solutions of the inequality; missing literal and `ceildiv` refuted |
| C26, C27 | the callbacks `propagate`, `check`, `undo`, `Level`, the queue of constraints, adding, removing and copying of constraints (Search.v) | invariant over all histories with a ghost stack of the states in which the open levels were opened; undo is shown to give back the top of that stack |
| C28 | `Propagator::check`, `Solver::check`, `check_full`, per-constraint `check_full` | invariant over all histories of a search: every reported watched order literal shows in the bounds; accepted implies solution |
| C29 | `propagate_variables_`, `update_domain_`, `update_lower_/upper_` | clauses are order axioms; bounds tightened |
| C30, C31 | `prepare_minimize`, `get_minimize_value`, `on_model`, the bound in `check`, `Solver::update_minimize`, translation of the objective (Objective.v, 64-bit arithmetic explicit) | induction over runs of several threads and over steps; constants change sign from step to step (refuted), cost 2^63 overflows (refuted), bounds outside of the value range stop the search (refuted) |
| C32 | `shown`, `on_model`, the show calls (Interface.v) over any number of steps of `parse` | invariant over sessions; iff |
| C33 | `clingcon_assignment_*`, `clingcon_lookup_symbol`, `clingcon_get_symbol` (Interface.v) | iteration = 1..largest named index; visited index without symbol refuted |
| C34, C35 | `strtonum`, `parse_*`, `set_value`, deferred options, `validate_options`, `configure` (Options.v) | exact characterisation of accepted strings against inductive decimal numerals; precedence by uniqueness of keys |
| C36 | `Statistics` `accu`, `reset`, `add_statistics_` (Interface.v) | sums per published key; doubles are exact numbers |
| C37 | `shift_rule`, `negate_relation`, `match` (Rewrite.v) | what a rule allows under any meaning of its other parts; positive `&diff` gives a relation the grammar rejects, refuted |
| C38 | `transform`, `TheoryRewriter`, `rewrite_tuple`, `collect_variables`, `tag_terms` (Rewrite.v) | substitution is injective on the variables of the tuple |
| C39 | `VarState` map and vector forms | refinement to a finite map |
| C40 | `copy_state` (Search.v) | field equality on reachable states; tables of constraints agree by the invariant |
| C41 | `Solver::translate` with the removal of translated constraints and the order clauses (Translation.v), for arbitrary choices per constraint | invariant over the loop relating solutions before and after, each iteration by C17, C18, C21; the loop ends because added constraints are linear |
| C42 | `litmap`, prev/succ literals | invariant |
| C43 | `InitClauseCreator`, `ControlClauseCreator` (Creator.v) | sent plus queued equals added, as an invariant; meaning of the transformed weight constraints |
| C44 | `Solver::update`, `remove` | subset of literals |
| C45 | `decide` | result free or fallback |
| C46 | `propagate`, `check`, `undo` of the solver and `Propagator::check` with all constraint propagators, splitting and the objective, over histories of a search | invariant on histories: every solution of the start (interpretation and integer assignment, with the objective bound) extends to the added literals and satisfies all clauses added since; nothing is admitted that was not before |
| C47 | `Propagator::init` (first step, one thread) composed with the search | composition of C08, simplification, C30, C41, C28 and C46; invariant `start` for what init leaves behind; completeness needs `firmly` for conditional distinct, disjoint and product constraints, which the code falsifies otherwise (C47_conditional_refuted), and a coefficient of at least -1 for the third variable of a product (C24); soundness needs neither; the objective handed to the search is a constraint that survives the translation under its number (C47_objective_kept) |
| C48 | `SumConstraintStateImpl` with its 32 and 64 bit types, `Level::undo`, passing changed bounds to constraints, `Solver::check`, `check_full` and `Propagator::check` on top (SumMachine.v); `simplify` and `normalize_constraint` for what the parser accepts | equality with the functions on unbounded integers in every state of a search (`mrun`), by an invariant on all levels: known bounds stay in the range of values and stored sums are sums of known bounds; the room of posted constraints by induction over normalisation |
| C49 | parsing.cc `parse` and all it calls, on the builder of propagator.cc (ParseRun.v): literals made by the parser, facts found meanwhile and results of calls are those of the program; `add_variable` with `min-int` and `max-int`; then `init` and the search as in C47 | each step of the parser is shown to add exactly a condition on the values and literals (`adds`: composition, fresh literals, normalisation by induction over its fuel); conditions are related to the meaning of the atoms (StatementsSpec) by the variable table; then C47. Values for unnamed variables are chosen in the range. C49_defined: no undefined behaviour while parsing, by a predicate on outcomes carried through every function; normalisation never runs out of fuel |
| C50 | solver.cc `check`, `simplify`, `update_domain_`, `update_literal`, with all constraint propagators (Search.v), and propagator.cc `check`, `init` | `C50_check_ends`: from every state of a search the loop ends after at most `room s + 1` rounds (sum of the differences of bounds), so the fuel of the model is no restriction. Facts are only recorded at the lowest level and speak about values between the bounds (`more_upd`), so applying them removes a value (`domain_room`); above the lowest level one round suffices (EndProofs.v). `C50_init_ends`: the first `init` ends; a round of `simplify` either reads more of clasp's trail, or adds literals or removes values, and the number of literals a variable can get and of values it has is finite (`pot`, EndSimplify.v); for `translate` C41. `C50_program_ends`: both together for a parsed program and the search after it (EndInit.v). |
| C51 | constraints.cc `literal_variable_ratio_`, `clause_estimate_` with its explicit stack and the decision in `translate` (Estimate.v), next to `weight_translate_` and `clause_translate_` (Translate.v) | C51_limits_partial, C51_estimate: estimate and translation walk the same tree (`kids`, `leaves`); every node has at least one case (`kids_ok`), so an entry of the stack contributes at least what was counted for it in advance (`entry_done`, by induction over the remaining elements and the values left) and the loop gives up exactly if the number of leaves reaches the limit. The total limit can be exceeded (C51_total_refuted), by linear constraints at most by the limit per constraint minus 2 (C51_total_partial, by induction over the constraints translated); so can the limit for distinct constraints (`dist_estimate` in Distinct.v): C51_distinct_refuted. For these C51_distinct_partial bounds the number by twice the largest accepted estimate: each value more than one element can have lies in an interval of the estimate or is its right end (`shared_open`, EstimateDistinct.v) |
| C52 | constraints.cc `required_literals` and `MinimizeConstraintState::translate` (Objective.v) | C52_limit_partial, C52_always, C52_never_partial: the entries sent are counted by induction over the elements (`elems_mins`, ObjectiveLimit.v) and compared with the number of literals needed (`needed` in EstimateSpec.v). The estimate is too low by the number of variables: C52_limit_refuted, C52_never_refuted |

## 3. Trusted base

* Coq's kernel and the reading of the C++ text: the model is tied to the code only by the citations.
* `Print Assumptions` of every property theorem (printed in the build): intended to be "Closed under the global context".
* Not modelled: clingo/clasp (oracle), the gringo parser and AST library (abstract terms and rules), memory layout,
  threads (each solver is modelled on its own), time measurement, floating point (`double` weights and times are exact
  numbers), hash/tie orders of unordered containers (where the order matters it is a parameter).
* Assumptions about clasp are the fields of `clasp_ok` (OrderSpec.v): the true literal is true, no literal is true together
  with its complement, what is true on the top level or fixed follows from what clasp knows, and during one callback the level and the
  assigned literals stay unless a conflict is reported; whether a literal is fixed does not depend on its sign. `units`
  (OrderProofs8.v, a clause's last literal gets assigned) is used only where a theorem claims that literals become assigned;
  `units_pos` (PropProofs.v, the same above the top level only, because clauses are queued during initialization) is used in C15: a
  refined reason literal that is dropped as fixed has to be false. `Demo.v` gives a concrete clasp satisfying all of them.
* clasp's knowledge apart from what the solver sends is an arbitrary set `Base` of interpretations over older literals.

* Linear constraints: `propagate`, `calculate_reason_`, `check_full`, `check_state_`, `update`, `undo`, `translate`, `weight_translate_`,
  `clause_translate_` are modelled (Sum.v, Translate.v); in the theorems about
  translation the estimates (`literal_variable_ratio_`, `clause_estimate_`) are arbitrary booleans; they are modelled in Estimate.v (C51), with the ratio of the options as a fraction.
* Distinct constraints: everything in `DistinctConstraintState` is modelled (Distinct.v); the two ordered sets of bounds are
  represented by the list of bounds of all elements.

* Interface: number parsing follows the C++ stream operators as implemented in libstdc++ (optional sign, decimal digits, unsigned types
  negate modulo 2^32); `strncmp` semantics are written out; the iteration order of the unordered symbol map is not used.
* Objective: a model is reported after a check of a total assignment that sees the bound left by the previous model (clasp's model
  lock, `PropagatorCheckMode::Both`), with `check-solution` enabled; everything else a thread does is arbitrary as long as it keeps the
  stored bound and the constraint; sorting of the elements is an arbitrary permutation.
* Search: a history is any sequence of the steps in SearchSpec.v (`callback`), with an arbitrary clasp. Assumed of it: clasp opens a level only
  after a check has passed on all changes (`settled`), undo is called once per open level, steps that prepare a search happen on the top level,
  an exception ends the search. The loops of `check` and `simplify` have fuel; theorems speak about runs that finish. There is enough fuel for `check` in a search and for the first `init` (C50). What the cached data
  of distinct and disjoint constraints (marks, stored intervals) is after undo is not part of `restored`: it is recomputed (for distinct constraints
  C20_current shows that everything not marked is up to date).
* Builder: calls happen on the top level with nothing queued (`top`); the order of terms in a sum is an arbitrary permutation. The parser model
  numbers its literals on its own; the builder theorems speak about arbitrary sequences of calls over known literals (`run`), so both are linked up
  to the names of literals; in C49 the parser runs on the builder itself.
* Translation: bounds stored with constraints are up to date when it starts (`translatable`, as after propagation, cf. C27_sums) and no fact is
  pending; the order of the constraints in the vector is not modelled; if the objective overflows `translate` throws, no claim is made then.
* Final check (C28): clasp's level does not change within a callback (`calm`), it undoes the levels it has left and passes a check before it opens a level
  (`in_order`), assigns every literal when it calls check with a total assignment (`total`) and has passed the watched literals that are true to
  `propagate` (`reported`). Splitting a domain adds a literal but no clause; this counts as news (`news`).
* Kept solutions (C46): as for C28, reported literals are true when `propagate` and `check` are called; a conflict on the top level ends the search. The literals of
  distinct and disjoint constraints count only if checks happen above the top level and clasp fixes no literal during a callback there (`steady`); without this
  the constraint itself is demanded, because C19_literal_refuted and C22_literal_refuted show that solutions with a false literal can be lost. Non-linear constraints
  are demanded without their literal and with coefficients of z at least -1 (C24_literal_refuted, C24_ceildiv_refuted).
* First step (C47): `init` (Init.v) sends clauses directly, the queue of `InitClauseCreator` (Creator.v, C39) is not part of it; clasp is arbitrary, so it may answer
  as if clauses were queued. clasp's trail is not empty and consists of true non-zero literals (`trail_ok`), init happens on the top level (`stays_top`). The calls have
  simplified terms, as the parser makes them (`op_tidy`). The loops of simplification and translation have fuel; theorems speak about runs that finish, and C50 shows that they do if clasp's trail is
  limited by the number of variables (`trail_limited`) and does not become shorter during init (`trail_grows`). Left out:
  statistics, the check mode, other threads, and what concerns later steps.
* Programs (C49): theory atoms are given as clingo hands them over (terms, guard, literal); the literals are below the first literal made by the parser. New names get
  their variables after the terms of an atom have been read instead of one by one (nothing else happens in between, and if reading throws parsing ends). `covered`: no
  `&nsum` in rule bodies or with several products, no `&dom` without values. If parsing itself reports a conflict, `init` ends (propagator.cc 405); that no answer is lost then is C49_rejected_partial and
  C49_contradiction_partial, without further conditions. Completeness otherwise has the condition `holds_firmly`, see C47_conditional_refuted.
* Machine arithmetic (C48): an operation that does not fit is `UB`; conversions to `val_t` wrap. A search starts with settled bounds in the range of values and
  constraints with room (`room`): every sum of bounds, its distance to the right-hand side and one more fit into 64 bits. Differences of bounds stored by
  `Level::update_lower/upper` and the other kinds of constraints are as in the model on unbounded integers (C22 and C25 treat theirs). The objective constraint needs
  room for all bounds in the range of values.
* Clause creators: the answers and the assignment of clingo's `PropagateInit` are an oracle over the calls made so far (`isolver`).

## 4. Findings from reading without a theorem

* The `static` propagator struct in clingcon.cc 350 fixes whether `decide` is registered by the first theory registered in the process.
* `safe_pow` rejects base 0 with any exponent; negative exponents truncate.
* `&dom{..} = 3` makes a variable named by a number (parsing.cc 799-801).
* `trail_offset_` persists over steps, so in later steps `simplify` may return at once while facts are pending.

## 5. Findings proved

* C02_ceildiv_refuted: `ceildiv` (util.hh 88-95) rounds the wrong way.
* C09_complete_refuted, C09_order_refuted: with two products in `&nsum` the first is dropped (parsing.cc 480-481).
* C09_strict_refuted: the complement of a non-linear body atom is posted with the literal of the atom instead of the negated one
  (propagator.cc 85-88), so the literal is false in all solutions (C09_strict_literal).
* C10_empty_refuted: an empty `&dom` imposes nothing (solver.cc 1028-1068).
* C16_bounds_refuted: for a positive coefficient the test `value_r >= upper_bound` (constraints.cc 215) also skips the upper bound itself
  although it violates the constraint; answers are not affected because the violation is noticed once the value is taken (C16_conflict).
* C29_delayed_refuted, C45_zero_refuted: the neighbour stored with a fact can be outdated, so larger literals are not set on
  the top level, and then `decide` can return literal 0.
* C19_literal_refuted: on the top level with an open constraint literal the first clause of a distinct constraint can make the literal
  false, and the following clauses are added without it (constraints.cc 1153-1156), which excludes solutions in which the constraint is inactive.
* C20_initial_refuted: distinct elements that have a value when the constraint is attached are never compared (constraints.cc 799-827).
* C21_facts_refuted: with a pending fact the branch `b == -TRUE_LIT` (constraints.cc 901-902) yields a wrong literal.
* C24_literal_refuted: clauses of non-linear constraints omit the literal of the constraint although propagation runs with an open literal (constraints.cc 1449-1519).
* C24_ceildiv_refuted: `ceildiv` exceeds the ceiling for negative coefficients of z (constraints.cc 1505), solutions are lost.
* C22_literal_refuted: as C19_literal_refuted, for disjoint constraints (constraints.cc 1667-1672).
* C22_overflow_refuted: the sums for long intervals overflow `val_t` (constraints.cc 1720-1721).
* C33_gap_refuted: iterating an assignment visits auxiliary variables, for which `clingcon_get_symbol` is undefined (clingcon.cc 596-617).
* C34_unsigned_refuted, C34_total_refuted: negative values for unsigned options wrap around (clingcon.cc 123-163, 259-266).
* C34_bool_refuted: abbreviated words and the empty string are accepted as booleans (clingcon.cc 213-224).
* C35_configure_refuted: with `clingcon_configure` the order of settings matters (clingcon.cc 201-211).
* C37_diff_refuted: shifting `:- &diff{..} <= k.` gives the relation `>` in the head, which the theory definition allows only as `<=` there (parsing.cc 119-133, parsing.hh 71).
* C31_constants_refuted: constants of the objective change sign with every further step (propagator.cc 251-256 adds `adjust` instead of subtracting it).
* C47_conditional_refuted: C19_literal_refuted as part of a whole run from the parser calls to a check on the top level that makes clasp's program unsatisfiable although it has a solution.
* C48_overflow_refuted: the parser accepts sums up to the limit of 64 bits, but propagation adds one to the slack (constraints.cc 211, 223): for
  `&sum{1073741823*x1; ..; 1073741823*x8; 16*x9} <= 7` over variables without a domain this is 2^63. With wrapping arithmetic the bound derived would be wrong.
* C30_overflow_refuted: an accepted objective whose value is 2^63 for the largest values of its variables (propagator.cc 610-619).
* C30_range_refuted: a bound outside of the range of values makes the next propagation throw although better models exist (constraints.cc 779-785).
* C27_queue_refuted: `Level::remove_constraints` (solver.cc 197-219) marks constraints that are kept as not queued although they stay in the
  queue; removing such a constraint before the next check leaves a dangling entry. In the program only the objective constraint can be
  removed this way, so a further step after one without any check is needed.
* C27_pending_refuted: attaching a linear constraint while changed bounds wait would count them twice (solver.cc 535-546); the program attaches when nothing waits.
* C51_total_refuted: the second number of `translate-clauses` (maximum clauses total) is only compared before a constraint is translated (constraints.cc 441), so the total can
  be exceeded; and a constraint with exactly as many clauses as the first number is not translated (561, 592, C51_estimate).
* C51_distinct_refuted: the estimate for `translate-distinct` (pb constraints) adds half-open intervals up to the upper bound and so leaves out the last value of each
  interval (constraints.cc 1079-1083): with x, y in 0..1, z, w in 10..11 and limit 3, four weight constraints are made.
* C52_limit_refuted, C52_never_refuted: `required_literals` counts upper - lower - 1 literals per variable (constraints.cc 737) although upper - lower are sent (760), so the
  objective is translated with up to as many literals more than `translate-opt` allows as it has variables; a variable with one value counts -1, so that even with
  `translate-opt=0`, documented as never, an objective can be translated.
