{"id": "C01", "title": "Checked arithmetic is exact or raises", "statement": "Every arithmetic operation evaluated while reading a theory atom (addition, subtraction, multiplication, division, remainder, negation, narrowing) either yields the exact mathematical result (truncating quotient and matching remainder for division) or raises an error. It raises only if the exact result (for a remainder: the quotient it belongs to) does not fit the type or the divisor is zero. No intermediate computation overflows.", "quantifier": "all pairs of operands of every fixed-width signed integer type", "why_tests_cant": "2^64 operand pairs already for 32 bit; the boundary cases are the interesting ones and there is one set per width", "anchors": ["libclingcon/clingcon/util.hh: safe_add safe_sub safe_mul safe_div safe_mod safe_inv safe_cast"]}
{"id": "C02", "title": "Rounding of bound computations", "statement": "When a constraint a*x <= b is turned into a bound on x the quotient is rounded in the solution-preserving direction: floor division gives the largest integer not above the quotient, ceiling division the smallest integer not below it.", "quantifier": "all dividends and all non-zero divisors", "why_tests_cant": "unbounded pairs; wrong rounding shows only for particular sign/remainder combinations", "anchors": ["libclingcon/clingcon/util.hh: floordiv ceildiv"]}
{"id": "C03", "title": "Domain sets behave like sets of integers", "statement": "The interval collection behind &dom behaves like a plain set of integers under every sequence of insertions, unions and clears: membership of a value, containment of a non-empty range, overlap with a range, emptiness and enumeration (ascending, each value once) all agree with the set of integers inserted so far, independently of insertion order.", "quantifier": "all sequences of insertions of (possibly empty or overlapping) intervals and all queries", "why_tests_cant": "infinitely many sequences; merging bugs appear only for particular overlap/adjacency patterns", "anchors": ["libclingcon/clingcon/util.hh: IntervalSet"]}
{"id": "C04", "title": "Domain splitting always makes progress", "statement": "Splitting a variable whose domain is [lo,hi] with lo<hi picks a value m with lo <= m < hi, for every pair of 32-bit bounds and without overflow, so both halves are non-empty and strictly smaller; repeated splitting ends after finitely many steps with a single value whichever half is taken each time.", "quantifier": "all pairs of 32-bit bounds and all sequences of left/right choices", "why_tests_cant": "2^63 pairs; overflow only near the extremes; termination is about all choice sequences", "anchors": ["libclingcon/clingcon/util.hh: midpoint", "libclingcon/src/solver.cc: Solver::check_full"]}
{"id": "C05", "title": "Collecting like terms preserves the expression", "statement": "Reading a linear expression given as any list of coefficient/variable pairs and constants yields pairwise distinct variables with non-zero coefficients (zero ones kept only where requested) and a constant so that under every assignment the value of the expression is unchanged; if a number leaves the supported range an error is raised instead.", "quantifier": "all lists of terms, all integer assignments", "why_tests_cant": "unbounded lists and orders of duplicates and cancellations", "anchors": ["libclingcon/src/parsing.cc: simplify", "libclingcon/clingcon/base.hh: check_valid_value"]}
{"id": "C06", "title": "Sum elements mean what they say", "statement": "The element list of &sum, &diff, &minimize and of the guard, written with +, -, * (by constants), unary signs, parentheses and arithmetic on constants, is read as the polynomial it denotes: under every assignment the value of the resulting term list equals the value of the written expression. Expressions that are not of the allowed shape, or whose numbers overflow, raise an error.", "quantifier": "all term trees, all integer assignments", "why_tests_cant": "unbounded nesting and operator combinations", "anchors": ["libclingcon/src/parsing.cc: parse_constraint_elem parse_constraint_elems evaluate push_co_vars"]}
{"id": "C07", "title": "Head &sum atoms imply their relation", "statement": "If a linear &sum/&diff atom in a rule head is true then the integer assignment satisfies the written relation (<=,<,>=,>,=,!=) and if it is false nothing is required: an assignment to the original literals and variables can be extended to everything created internally iff the atom is false or the relation holds.", "quantifier": "all six relations, all linear term lists, all assignments, all sets of already fixed literals", "why_tests_cant": "quantifies over all assignments and term lists; internal auxiliary literals multiply the cases", "anchors": ["libclingcon/src/parsing.cc: normalize_constraint parse_constraint", "libclingcon/src/propagator.cc: ConstraintBuilder::add_constraint"]}
{"id": "C08", "title": "Body &sum atoms are equivalent to their relation", "statement": "A linear &sum/&diff atom in a rule body is true exactly if the integer assignment satisfies the written relation: an assignment to the original literals and variables extends to the internal literals iff (atom true <-> relation holds).", "quantifier": "all six relations, all linear term lists, all assignments, all sets of already fixed literals", "why_tests_cant": "as C07", "anchors": ["libclingcon/src/parsing.cc: normalize_constraint parse_constraint", "libclingcon/src/propagator.cc: ConstraintBuilder::add_constraint"]}
{"id": "C09", "title": "Non-linear sums are read completely", "statement": "An accepted &nsum atom is passed on with the same meaning: the sum of all its product and linear terms is what is constrained, for head and body atoms alike; anything that cannot be represented raises an error.", "quantifier": "all lists of product and linear terms, all relations, all assignments", "why_tests_cant": "the supported shape depends on the order of terms; tests use few orders", "anchors": ["libclingcon/src/parsing.cc: add_constraint (NonlinearTermVec) simplify normalize_constraint", "libclingcon/src/propagator.cc: ConstraintBuilder::add_nonlinear"]}
{"id": "C10", "title": "&dom restricts exactly to the listed values", "statement": "If a &dom atom is true then its variable takes one of the listed values, and every listed value within the variable's bounds stays possible; if it is false nothing is required.", "quantifier": "all unions of intervals (including the empty one), all variable bounds, all already created order literals", "why_tests_cant": "holes, adjacency and bounds interact; infinitely many domains", "anchors": ["libclingcon/src/solver.cc: Solver::add_dom", "libclingcon/src/parsing.cc: parse_dom parse_dom_elem"]}
{"id": "C11", "title": "Pairwise &distinct", "statement": "A &distinct atom with at most two expressions that is true forces the two expressions to differ and imposes nothing else; an atom that is false imposes nothing.", "quantifier": "all pairs of linear expressions with constants, all assignments, all truth states of the atom", "why_tests_cant": "all assignments; special cases for equal expressions and fixed literals", "anchors": ["libclingcon/src/propagator.cc: ConstraintBuilder::add_distinct", "libclingcon/src/parsing.cc: parse_distinct"]}
{"id": "C12", "title": "Pairwise &disjoint", "statement": "A &disjoint atom with two intervals that is true forces the intervals [x,x+w) and [y,y+v) not to overlap and imposes nothing else.", "quantifier": "all pairs of start variables and positive lengths, all assignments", "why_tests_cant": "all assignments; same-variable and extreme-length special cases", "anchors": ["libclingcon/src/propagator.cc: ConstraintBuilder::add_disjoint translate_disjoint_", "libclingcon/src/parsing.cc: parse_disjoint"]}
{"id": "C13", "title": "Order literals mean 'variable <= value'", "statement": "Whenever the solver introduces or reuses a literal for 'x <= v' it means exactly that: over every sequence of requests, in the solutions the literal is true iff x <= v; requests at or above the upper bound give the true literal and below the lower bound the false literal; the same pair never gets two different literals; introducing it removes no solution.", "quantifier": "all sequences of requests for all variables and values, all assignments", "why_tests_cant": "literals are created lazily in an order determined by the search", "anchors": ["libclingcon/src/solver.cc: Solver::get_literal update_literal update_litmap_", "libclingcon/clingcon/solver.hh: VarState"]}
{"id": "C14", "title": "Single-variable constraints", "statement": "A constraint a*x <= b added with a literal (implication or equivalence) restricts x to exactly the integers satisfying the inequality when the literal is true, and for equivalence to exactly those violating it when it is false, whatever literals already exist for x.", "quantifier": "all coefficients, bounds, variable domains, existing literals and truth states of the literal", "why_tests_cant": "rounding, reuse of existing literals and facts interact", "anchors": ["libclingcon/src/solver.cc: Solver::add_simple"]}
{"id": "C15", "title": "Linear propagation never loses a solution", "statement": "Every clause added while propagating a linear constraint (or objective bound) is satisfied by every integer assignment that satisfies the constraint and agrees with the order literals, for all option combinations (reason refinement, introduction of literals, chain propagation).", "quantifier": "all linear constraints, all reachable bounds and existing literals, all configurations", "why_tests_cant": "depends on the state reached by the search", "anchors": ["libclingcon/src/constraints.cc: SumConstraintStateImpl::propagate calculate_reason_"]}
{"id": "C16", "title": "Linear propagation catches every violation", "statement": "If the current bounds already violate a linear constraint with a true literal, propagation adds a clause that is false under the current assignment (a conflict); if no conflict is reported every variable's remaining bounds are consistent with the constraint. The final check accepts a total assignment iff the constraint holds.", "quantifier": "all linear constraints and bounds", "why_tests_cant": "as C15", "anchors": ["libclingcon/src/constraints.cc: SumConstraintStateImpl::propagate check_full"]}
{"id": "C17", "title": "Clause translation is equivalent", "statement": "Replacing a linear constraint by clauses does not change its solutions: an assignment within the bounds satisfies all generated clauses iff the literal is false or the inequality holds.", "quantifier": "all linear constraints, all bounds, all assignments", "why_tests_cant": "exponentially many clauses; depends on all bounds", "anchors": ["libclingcon/src/constraints.cc: SumConstraintState::clause_translate_ translate"]}
{"id": "C18", "title": "Weight-constraint translation is equivalent", "statement": "Replacing a linear constraint by a weight constraint over order literals does not change its solutions.", "quantifier": "all linear constraints, all bounds, all assignments", "why_tests_cant": "as C17", "anchors": ["libclingcon/src/constraints.cc: SumConstraintState::weight_translate_", "libclingcon/clingcon/base.hh: InitClauseCreator::add_weight_constraint"]}
{"id": "C19", "title": "Distinct propagation never loses a solution", "statement": "Every clause added while propagating a &distinct constraint is satisfied by every assignment in which the expressions are pairwise different and that agrees with the order literals.", "quantifier": "all &distinct constraints over linear expressions, all reachable bounds", "why_tests_cant": "Hall-interval reasoning depends on global bound configurations", "anchors": ["libclingcon/src/constraints.cc: DistinctConstraintState::propagate propagate_ propagate_assigned_"]}
{"id": "C20", "title": "Distinct violations are caught", "statement": "If two expressions of a true &distinct constraint have become fixed to the same value, propagation reports a conflict; the final check accepts a total assignment iff the expressions are pairwise different.", "quantifier": "all &distinct constraints and bounds", "why_tests_cant": "as C19", "anchors": ["libclingcon/src/constraints.cc: DistinctConstraintState::propagate propagate_assigned_ check_full"]}
{"id": "C21", "title": "Distinct translation is equivalent", "statement": "Replacing a &distinct constraint by weight constraints does not change its solutions.", "quantifier": "all &distinct constraints, bounds and assignments", "why_tests_cant": "depends on overlap structure of domains", "anchors": ["libclingcon/src/constraints.cc: DistinctConstraintState::translate"]}
{"id": "C22", "title": "Disjoint propagation never loses a solution", "statement": "Every clause added while propagating a &disjoint constraint is satisfied by every assignment in which the intervals do not overlap and that agrees with the order literals; arithmetic does not overflow.", "quantifier": "all &disjoint constraints, all reachable bounds and lengths", "why_tests_cant": "as C19; overflow needs extreme lengths", "anchors": ["libclingcon/src/constraints.cc: DisjointConstraintState::propagate Algorithm"]}
{"id": "C23", "title": "Disjoint violations are caught", "statement": "The final check accepts a total assignment iff no two intervals of a true &disjoint constraint overlap.", "quantifier": "all &disjoint constraints and assignments", "why_tests_cant": "all assignments", "anchors": ["libclingcon/src/constraints.cc: DisjointConstraintState::check_full"]}
{"id": "C24", "title": "Non-linear propagation never loses a solution", "statement": "Every clause added while propagating a*x*y + b*z <= c with a literal is satisfied by every assignment in which the literal is false or the inequality holds.", "quantifier": "all coefficients, bounds and truth states of the literal", "why_tests_cant": "sign combinations times search states", "anchors": ["libclingcon/src/constraints.cc: NonlinearConstraintState::propagate get_bound", "libclingcon/clingcon/util.hh: ceildiv"]}
{"id": "C25", "title": "Non-linear violations are caught", "statement": "If all variables of a true non-linear constraint are fixed and violate it, propagation adds a clause false under the current assignment; the final check accepts iff the inequality holds; no computation overflows for supported values.", "quantifier": "all coefficients and values", "why_tests_cant": "as C24", "anchors": ["libclingcon/src/constraints.cc: NonlinearConstraintState::propagate check_full"]}
{"id": "C26", "title": "Backtracking restores the domains", "statement": "After any history of deciding, propagating and backtracking, the bounds of every variable are exactly those that were in force when the current decision level was last extended, i.e. undoing a level restores the state before it was entered.", "quantifier": "all histories of propagation and undo calls over any number of levels", "why_tests_cant": "histories are unbounded", "anchors": ["libclingcon/src/solver.cc: Level::update_lower Level::update_upper Level::undo", "libclingcon/clingcon/solver.hh: VarState::push_lower pop_lower push_upper pop_upper"]}
{"id": "C27", "title": "Incremental bound sums stay correct", "statement": "After any history of bound changes, checks, deactivations and backtracking, the lower and upper bounds a linear constraint keeps for its sum equal the sums recomputed from the current variable bounds whenever the constraint is propagated.", "quantifier": "all histories of bound changes, deactivation and undo", "why_tests_cant": "histories are unbounded; drift appears after particular interleavings", "anchors": ["libclingcon/src/solver.cc: Solver::check Level::undo update_constraints_ mark_inactive", "libclingcon/src/constraints.cc: SumConstraintStateImpl::update undo"]}
{"id": "C28", "title": "Reported answers are solutions", "statement": "When a total assignment is accepted every integer variable has exactly one value within its bounds, the order literals agree with it and every constraint whose literal is true is satisfied; otherwise a clause is added or an error is raised.", "quantifier": "all programs, all search histories, all accepted assignments", "why_tests_cant": "ranges over all searches", "anchors": ["libclingcon/src/solver.cc: Solver::check_full", "libclingcon/src/propagator.cc: Propagator::check", "libclingcon/src/constraints.cc: check_full"]}
{"id": "C29", "title": "Domain propagation follows the order", "statement": "When a literal x <= v becomes true (false) the bound of x is tightened to v (v+1), literals for larger (smaller) values are set accordingly, and an empty domain is reported as a conflict; every clause added for this is an instance of 'x <= v implies x <= w for v <= w'.", "quantifier": "all variables, values, orders of assignment", "why_tests_cant": "depends on creation and assignment order", "anchors": ["libclingcon/src/solver.cc: Solver::update_domain_ update_lower_ update_upper_ propagate_variables_ propagate_"]}
{"id": "C30", "title": "Minimization reports strictly improving, correct costs", "statement": "The reported cost of a model equals the value of the objective under the reported assignment, and a model is reported only if its cost is strictly below the best cost so far when bounding is enabled.", "quantifier": "all objectives, all sequences of models", "why_tests_cant": "all sequences", "anchors": ["libclingcon/src/propagator.cc: Propagator::on_model get_minimize_value update_minimize", "libclingcon/src/constraints.cc: MinimizeConstraintState"]}
{"id": "C31", "title": "The objective accumulates correctly over solving steps", "statement": "After any number of solving steps the objective is the sum of all &minimize terms (minus all &maximize terms) added so far, including constants.", "quantifier": "all sequences of steps each adding any terms", "why_tests_cant": "multi-shot histories", "anchors": ["libclingcon/src/propagator.cc: ConstraintBuilder::prepare_minimize", "libclingcon/src/parsing.cc: parse_objective"]}
{"id": "C32", "title": "Exactly the shown variables are reported", "statement": "Without a &show statement all named variables are reported in a model; with &show exactly those listed by name or whose symbol matches a listed signature; every reported value is the variable's value.", "quantifier": "all programs and show statements", "why_tests_cant": "all combinations of names and signatures", "anchors": ["libclingcon/src/propagator.cc: Propagator::shown on_model add_variable", "libclingcon/src/parsing.cc: parse_show"]}
{"id": "C33", "title": "Iterating the assignment visits every named variable once", "statement": "Iterating an assignment with the C interface terminates and visits each named variable exactly once in increasing index order; each visited index has a symbol and looking that symbol up returns that index.", "quantifier": "all sets of variables including gaps from auxiliary variables", "why_tests_cant": "gaps depend on translation", "anchors": ["libclingcon/src/clingcon.cc: clingcon_assignment_begin clingcon_assignment_next clingcon_assignment_has_value clingcon_lookup_symbol clingcon_get_symbol"]}
{"id": "C34", "title": "Option values are parsed strictly", "statement": "Numeric and boolean option values are accepted only if well formed and in range, and the parsed value is the written one; otherwise configuring fails.", "quantifier": "all option strings", "why_tests_cant": "infinitely many strings", "anchors": ["libclingcon/src/clingcon.cc: parse_bool parse_num parse_range_num parse_sign_value strtonum"]}
{"id": "C35", "title": "Thread-specific options override global ones", "statement": "After configuration thread t uses the value given for t if any, otherwise the value given for all threads, otherwise the default, independently of the order in which options were given.", "quantifier": "all sequences of option settings, all threads", "why_tests_cant": "order independence over all sequences", "anchors": ["libclingcon/src/clingcon.cc: set_value clingcon_validate_options deferred parsers", "libclingcon/clingcon/base.hh: Config::solver_config"]}
{"id": "C36", "title": "Statistics add up", "statement": "Accumulated statistics after any number of solving steps are the sums of the step statistics, and step counters are zero after being merged.", "quantifier": "all sequences of steps and threads", "why_tests_cant": "unbounded sequences", "anchors": ["libclingcon/clingcon/base.hh: Statistics::accu reset", "libclingcon/src/propagator.cc: Propagator::on_statistics"]}
{"id": "C37", "title": "Shifting constraints into the head preserves meaning", "statement": "Rewriting an integrity constraint by moving a theory literal to the head with the complementary relation preserves the integer assignments allowed by the rule; rules that are not integrity constraints or contain no such literal are unchanged.", "quantifier": "all rules, all signs, all relations, all assignments", "why_tests_cant": "all rule bodies", "anchors": ["libclingcon/src/parsing.cc: shift_rule negate_relation transform"]}
{"id": "C38", "title": "Repeated elements of a sum count repeatedly", "statement": "After rewriting, two elements of the same atom are merged by the grounder only if they come from the same element and the same values of that element's variables.", "quantifier": "all theory atoms and variable substitutions", "why_tests_cant": "all element lists", "anchors": ["libclingcon/src/parsing.cc: rewrite_tuple TheoryRewriter"]}
{"id": "C39", "title": "Literal storage is representation independent", "statement": "The per-variable literal store answers every query (has, get, next, previous, iterate up/down) identically whether it uses the sparse or the dense representation, over every sequence of insertions, removals and switches.", "quantifier": "all operation sequences", "why_tests_cant": "the switch happens at data-dependent times", "anchors": ["libclingcon/clingcon/solver.hh: VarState::set_literal get_or_add_literal unset_literal lit_lt lit_le lit_gt lit_ge with_lt with_gt mogrify_"]}
{"id": "C40", "title": "Worker threads start from the master's state", "statement": "Copying the master solver's state to another thread makes every variable's bounds and literals and every constraint's bookkeeping equal to the master's.", "quantifier": "all master states", "why_tests_cant": "depends on arbitrary reachable states", "anchors": ["libclingcon/src/solver.cc: Solver::copy_state Level::copy_state", "libclingcon/clingcon/solver.hh: VarState"]}
{"id": "C41", "title": "Translation settings do not change the models", "statement": "Whether constraints are translated to clauses, to weight constraints or propagated lazily, the accepted integer assignments are the same.", "quantifier": "all translation limits and programs", "why_tests_cant": "all configurations times all programs", "anchors": ["libclingcon/src/solver.cc: Solver::translate", "libclingcon/src/constraints.cc: SumConstraintState::translate DistinctConstraintState::translate"]}
{"id": "C42", "title": "Order literals are chained consistently", "statement": "For every literal the recorded literal of the next smaller and next larger value is the nearest existing one, over every sequence of creations, removals and fixings, so that order clauses between neighbours imply all order relations.", "quantifier": "all sequences of literal creation and removal", "why_tests_cant": "sequence dependent", "anchors": ["libclingcon/src/solver.cc: Solver::update_litmap_ litmap_add_ Solver::simplify add_order_clauses"]}
{"id": "C43", "title": "Clauses queued during initialization are all delivered", "statement": "Every clause and weight constraint added during initialization is delivered to the underlying solver exactly once in order, or unsatisfiability is reported; clauses dropped as already satisfied are satisfied.", "quantifier": "all sequences of additions", "why_tests_cant": "unbounded sequences", "anchors": ["libclingcon/clingcon/base.hh: InitClauseCreator"]}
{"id": "C44", "title": "Removing old objective bounds is sound over steps", "statement": "Between solving steps, literals that are no longer valid are removed and the remaining literals keep their meaning.", "quantifier": "all multi-shot histories", "why_tests_cant": "histories", "anchors": ["libclingcon/src/solver.cc: Solver::update", "libclingcon/clingcon/solver.hh: VarState::unset_literal"]}
{"id": "C45", "title": "Decisions made by the chain heuristic are sensible", "statement": "With the max-chain heuristic the returned decision literal is undecided, and otherwise the fallback is returned.", "quantifier": "all solver states and fallbacks", "why_tests_cant": "state dependent", "anchors": ["libclingcon/src/solver.cc: Solver::decide"]}
{"id": "C46", "title": "Search keeps all solutions", "statement": "Whatever the search does (propagation, checks, splitting domains, backtracking, objective bounds), every solution that exists when the search starts and is within the current objective bound still satisfies all clauses added, with the added literals given their meaning; if the clauses cannot be satisfied then there is no such solution.", "quantifier": "all histories of a search with any constraints, any decisions of the underlying solver", "why_tests_cant": "unbounded histories, interleaving of constraints, and absence of solutions", "anchors": ["libclingcon/src/solver.cc: Solver::propagate, Solver::check, Solver::undo, Solver::check_full", "libclingcon/src/propagator.cc: Propagator::check", "libclingcon/src/constraints.cc: propagate of all constraint states"]}
{"id": "C47", "title": "First step from parser calls to answers", "statement": "For a new propagator: after the calls made by the parser and a successful init a search can start. Whenever check accepts a total assignment, the assignment and the reported values satisfy everything the calls demand and the objective is within the bound. At any point every solution within the bound still satisfies all that clasp knows, with suitable values for added literals and variables; so if clasp reports unsatisfiability, or init fails, there is no solution within the bound.", "quantifier": "all sequences of calls, all option values, all choices of what is translated, all histories of a search", "why_tests_cant": "composition of building, simplification, translation and an unbounded search; absence of lost solutions", "anchors": ["libclingcon/src/propagator.cc: Propagator::init, simplify_, translate_, check", "libclingcon/src/solver.cc: Solver::simplify, Solver::translate, Solver::check, Solver::propagate, Solver::undo"]}
{"id": "C48", "title": "Arithmetic of linear propagation stays in range", "statement": "During a search no operation on coefficients, bounds, sums and slacks of linear constraints and of the objective constraint overflows its 32 or 64 bit type: check and undo compute the same as with unbounded integers, for all constraints that the parser accepts.", "quantifier": "all histories of a search, all linear constraints accepted by the parser, all bounds in the range of values", "why_tests_cant": "overflow needs coefficients and bounds at the limits, in all states that a search may reach; incremental updates and their undoing have to cancel exactly", "anchors": ["libclingcon/src/constraints.cc: SumConstraintStateImpl (attach, update, undo, propagate, calculate_reason_, check_full)", "libclingcon/src/solver.cc: Level::undo, Solver::check, update_constraints_", "libclingcon/src/parsing.cc: simplify, normalize_constraint"]}
{"id": "C49", "title": "From theory atoms to answers", "statement": "For a program given by its theory atoms (sums, sums with a product in rule heads, differences, distinct, disjoint, domains, objective functions, show statements), every total assignment that check accepts gives values between min-int and max-int to the named variables such that each theory atom holds as written if its literal is true (and only then for sums and differences in rule bodies), and the objective written in the program is within the current bound. Conversely no assignment with these properties is excluded at any point of parsing, initialisation and search, so unsatisfiable means that there is none within the bound. Parsing any program with 32-bit numbers never performs an undefined operation: it succeeds, reports a conflict or throws.", "quantifier": "all programs of covered theory atoms over any literals, all ranges of values, all searches with any interleaving of propagate, check and undo, all objective bounds", "why_tests_cant": "the property connects the text of the program with the final answers through the parser, the literals it introduces, the builder, translation and propagation; tests compare few small programs with few configurations", "anchors": ["libclingcon/src/parsing.cc: parse, parse_constraint, normalize_constraint, parse_distinct, parse_disjoint, parse_dom, parse_objective, parse_show", "libclingcon/src/propagator.cc: ConstraintBuilder, Propagator::add_variable, Propagator::init, Propagator::check", "libclingcon/src/solver.cc: Solver::check, Solver::propagate, Solver::check_full"]}
{"id": "C50", "title": "Initialisation and check end", "statement": "Every call of check during a search returns: the loop that applies facts and propagates constraints until nothing changes runs at most once more than the number of values that can still be removed from the domains of all variables, whatever constraints there are and whatever the underlying solver answers. The first initialisation (simplification and translation of the constraints of a parsed program) returns as well.", "quantifier": "all programs, all histories of a search, all constraints, all answers of the underlying solver, all objective bounds", "why_tests_cant": "absence of an infinite loop over unbounded histories; slow convergence of cyclic constraints depends on the bounds", "anchors": ["libclingcon/src/solver.cc: Solver::check, Solver::simplify, Solver::update_domain_, Solver::update_literal", "libclingcon/src/propagator.cc: Propagator::check, Propagator::init", "libclingcon/src/constraints.cc: propagate of all constraint states"]}
{"id": "C51", "title": "Limits for the translation of linear and distinct constraints are respected", "statement": "With the options translate-clauses=n,m and translate-pb=r: a linear constraint is translated to clauses only if it needs fewer than n of them and fewer than m clauses were made by translation before, and the estimate of their number is exact; a weight constraint it is translated to has at most r times as many literals as the constraint has unassigned variables; with literals-only no clause is made; the total number of clauses stays within m; and with translate-distinct=d a distinct constraint is translated to at most d weight constraints.", "quantifier": "all linear and distinct constraints with up-to-date bounds, all domains, all configurations, all answers of the underlying solver", "why_tests_cant": "the estimate walks a tree of cases that depends on all bounds and coefficients; that it agrees with the number of clauses of a different traversal for every constraint is a statement over an infinite set", "anchors": ["libclingcon/src/constraints.cc: SumConstraintState::translate, literal_variable_ratio_, clause_estimate_, weight_translate_, clause_translate_; DistinctConstraintState::translate, estimate_", "libclingcon/src/clingcon.cc: options translate-clauses, translate-pb, literals-only, translate-distinct"]}
{"id": "C52", "title": "Limit for the translation of the objective is respected", "statement": "With the option translate-opt=n the objective function is translated to clasp's objective function if and only if it needs fewer than n literals for the values of its variables; never with n=0 and always with the largest n or if it was translated in an earlier step. Exactly one entry is sent for the constant, one per variable and one per such literal, and nothing is sent if it is not translated.", "quantifier": "all objective functions, all domains, all limits, all states of the solver", "why_tests_cant": "the number of literals depends on all domains; that the estimate agrees with the number actually sent is a statement about all objectives and domains, and the cases where it does not are those at the boundary and with variables that have one value", "anchors": ["libclingcon/src/constraints.cc: MinimizeConstraintState::required_literals, MinimizeConstraintState::translate", "libclingcon/src/clingcon.cc: option translate-opt"]}
