{
 "claims": [
  {
   "property": "C01",
   "status": "proved",
   "theorems": [
    "C01_add_exact",
    "C01_sub_exact",
    "C01_mul_exact",
    "C01_inv_exact",
    "C01_div_exact",
    "C01_mod_exact",
    "C01_cast_signed",
    "C01_cast_to_unsigned",
    "C01_cast_to_signed",
    "C01_valid_value"
   ],
   "note": ""
  },
  {
   "property": "C02",
   "status": "partial",
   "theorems": [
    "C02_floordiv_floor",
    "C02_floordiv_pos",
    "C02_floordiv_neg",
    "C02_floordiv_range",
    "C02_ceildiv_refuted",
    "C02_ceildiv_neg_refuted"
   ],
   "note": "floor division proved; the ceiling division of the code (util.hh 88-95) is wrong, refuted with witnesses"
  },
  {
   "property": "C03",
   "status": "proved",
   "theorems": [
    "C03_contents",
    "C03_contains",
    "C03_contains_range",
    "C03_intersects",
    "C03_empty",
    "C03_enumerate",
    "C03_order_independent"
   ],
   "note": ""
  },
  {
   "property": "C04",
   "status": "proved",
   "theorems": [
    "C04_progress",
    "C04_terminates",
    "C04_complete"
   ],
   "note": ""
  },
  {
   "property": "C05",
   "status": "proved",
   "theorems": [
    "C05_simplify",
    "C05_no_overflow",
    "C05_accepts",
    "C05_simplify_nonlinear",
    "C05_nonlinear_no_overflow",
    "C05_gcd"
   ],
   "note": ""
  },
  {
   "property": "C06",
   "status": "proved",
   "theorems": [
    "C06_sum",
    "C06_sum_nonlinear",
    "C06_diff",
    "C06_value_unique",
    "C06_sum_no_overflow"
   ],
   "note": ""
  },
  {
   "property": "C07",
   "status": "proved",
   "theorems": [
    "C07_head",
    "C08_total",
    "C08_atom",
    "C08_program",
    "C08_names",
    "C08_vars",
    "C08_posted",
    "C08_posted_defined",
    "C08_run"
   ],
   "note": ""
  },
  {
   "property": "C08",
   "status": "proved",
   "theorems": [
    "C08_body",
    "C08_total",
    "C08_atom",
    "C08_program",
    "C08_names",
    "C08_vars",
    "C08_posted",
    "C08_posted_defined",
    "C08_run"
   ],
   "note": ""
  },
  {
   "property": "C09",
   "status": "partial",
   "theorems": [
    "C09_nonlinear_partial",
    "C09_posted",
    "C09_complete_refuted",
    "C09_order_refuted",
    "C09_strict_literal",
    "C09_strict_refuted"
   ],
   "note": "exact for heads with at most one product; with two products the first is dropped silently (parsing.cc 480-481), in bodies the complement is posted with the wrong literal (propagator.cc 85-88), both refuted with witnesses"
  },
  {
   "property": "C10",
   "status": "partial",
   "theorems": [
    "C10_domain",
    "C10_domain_read",
    "C10_empty_refuted"
   ],
   "note": "exact for non-empty domains, read and imposed; an empty domain imposes nothing (solver.cc 1028-1068), refuted with a witness"
  },
  {
   "property": "C11",
   "status": "proved",
   "theorems": [
    "C11_two",
    "C11_few",
    "C11_defined",
    "C08_posted",
    "C08_run"
   ],
   "note": ""
  },
  {
   "property": "C12",
   "status": "proved",
   "theorems": [
    "C12_two",
    "C12_few",
    "C12_defined",
    "C08_posted",
    "C08_run"
   ],
   "note": ""
  },
  {
   "property": "C13",
   "status": "proved",
   "theorems": [
    "C13_meaning",
    "C13_outside",
    "C13_conservative",
    "C13_same_literal",
    "C13_no_sharing",
    "C13_sequences"
   ],
   "note": "clasp is an oracle constrained by clasp_ok"
  },
  {
   "property": "C14",
   "status": "proved",
   "theorems": [
    "C14_simple"
   ],
   "note": "values are unbounded integers; floordiv is C02"
  },
  {
   "property": "C15",
   "status": "proved",
   "theorems": [
    "C15_sound"
   ],
   "note": "all states with consistent tables and explained bounds, all configurations; a refined reason relies on clasp assigning the last literal of a binary clause (units_pos)"
  },
  {
   "property": "C16",
   "status": "partial",
   "theorems": [
    "C16_conflict",
    "C16_bounds",
    "C16_bounds_refuted",
    "C16_check_full"
   ],
   "note": "violations and the final check are exact; remaining bounds are consistent except for the upper bound of a variable with a positive coefficient, refuted with a witness"
  },
  {
   "property": "C17",
   "status": "proved",
   "theorems": [
    "C17_translation",
    "C17_clauses"
   ],
   "note": "unbounded integers; the limits deciding about translation are arbitrary"
  },
  {
   "property": "C18",
   "status": "proved",
   "theorems": [
    "C18_weight",
    "C17_translation"
   ],
   "note": "unbounded integers apart from the range test of the bound"
  },
  {
   "property": "C19",
   "status": "proved",
   "theorems": [
    "C19_sound",
    "C19_guarded",
    "C19_open",
    "C19_literal_refuted"
   ],
   "note": "clauses keep all assignments with pairwise different values; assignments in which the literal of the constraint is false are kept too unless the literal becomes fixed during propagation on the top level, refuted with a witness"
  },
  {
   "property": "C20",
   "status": "partial",
   "theorems": [
    "C20_conflict",
    "C20_marked",
    "C20_check",
    "C20_current",
    "C20_initial_refuted"
   ],
   "note": "conflict for elements marked for propagation; in all states of searches the bounds kept for elements not marked for recalculation are up to date; elements with a value when the constraint is added are never compared, refuted with a witness; the final check is exact"
  },
  {
   "property": "C21",
   "status": "proved",
   "theorems": [
    "C21_translation",
    "C21_range",
    "C21_facts_refuted"
   ],
   "note": "unbounded integers; no facts are pending when translation starts, a witness shows that this is needed"
  },
  {
   "property": "C22",
   "status": "partial",
   "theorems": [
    "C22_sound",
    "C22_guarded",
    "C22_open",
    "C22_no_overflow_partial",
    "C22_literal_refuted",
    "C22_overflow_refuted"
   ],
   "note": "clauses keep all assignments without overlap; assignments in which the literal of the constraint is false are kept too unless the literal becomes fixed during propagation on the top level, refuted with a witness; no overflow if the lengths add up to at most 2^30, overflow for longer intervals refuted with a witness"
  },
  {
   "property": "C23",
   "status": "proved",
   "theorems": [
    "C23_check",
    "C23_accepts"
   ],
   "note": "exact on total assignments with lengths and bounds in range"
  },
  {
   "property": "C24",
   "status": "partial",
   "theorems": [
    "C24_sound_partial",
    "C24_true_partial",
    "C24_literal_refuted",
    "C24_ceildiv_refuted"
   ],
   "note": "all solutions of the inequality are kept if the coefficient of z is at least -1 or the ceiling division is exact; the clauses omit the literal of the constraint and the ceiling division is wrong for negative coefficients, both refuted with witnesses"
  },
  {
   "property": "C25",
   "status": "proved",
   "theorems": [
    "C25_no_overflow",
    "C25_conflict",
    "C25_assigned",
    "C25_check"
   ],
   "note": "machine arithmetic with 128 bits is explicit in the model"
  },
  {
   "property": "C26",
   "status": "proved",
   "theorems": [
    "C26_restored",
    "C26_defined"
   ],
   "note": "histories of all callbacks, with nested levels, deactivation and removal of watches; clasp calls check before it opens a level"
  },
  {
   "property": "C27",
   "status": "proved",
   "theorems": [
    "C27_sums",
    "C27_check",
    "C27_settles",
    "C27_pending_refuted",
    "C27_queue_refuted"
   ],
   "note": "constraints are added when no bound change is pending and the objective constraint is not removed between translation and the next check; both conditions are needed, shown by witnesses"
  },
  {
   "property": "C28",
   "status": "proved",
   "theorems": [
    "C28_check"
   ],
   "note": "histories of all callbacks of a search; an accepted total assignment is a solution, otherwise a clause or a literal has been added or an error raised; clasp reports watched literals and undoes levels it leaves; satisfaction of constraints requires the option check-solution as in the code; undefined behaviour of machine arithmetic (C22, C25) is a separate outcome"
  },
  {
   "property": "C29",
   "status": "partial",
   "theorems": [
    "C29_bounds",
    "C29_conflict",
    "C29_neighbour",
    "C29_all_larger",
    "C29_delayed_refuted"
   ],
   "note": "bounds, conflicts and added clauses for all states; that literals of larger values are set holds above the top level (given that clasp assigns the last literal of a clause) and is refuted for facts with an outdated neighbour"
  },
  {
   "property": "C30",
   "status": "proved",
   "theorems": [
    "C30_cost",
    "C30_no_overflow",
    "C30_improving",
    "C30_overflow_refuted",
    "C30_range_refuted"
   ],
   "note": "runs of any number of threads; a model is reported after a check that sees the bound of the previous model and with the option check-solution; cost 2^63 overflows and bounds outside of the value range stop the search, both with witnesses"
  },
  {
   "property": "C31",
   "status": "partial",
   "theorems": [
    "C31_objective_read",
    "C31_terms",
    "C31_first",
    "C31_accumulates_partial",
    "C31_general",
    "C31_prepared",
    "C31_translation",
    "C31_constants_refuted"
   ],
   "note": "exact value over any number of steps; constants of earlier steps change sign with every step, refuted with a witness; clasp's objective function equals the objective when it is translated"
  },
  {
   "property": "C32",
   "status": "proved",
   "theorems": [
    "C32_shown"
   ],
   "note": "any number of steps; arities below 2^31"
  },
  {
   "property": "C33",
   "status": "partial",
   "theorems": [
    "C33_iteration",
    "C33_reachable",
    "C33_gap_refuted"
   ],
   "note": "iteration terminates and the indices with a value are those of the named variables in order; indices of auxiliary variables below named ones are visited too and have no symbol, refuted with a witness"
  },
  {
   "property": "C34",
   "status": "partial",
   "theorems": [
    "C34_signed",
    "C34_bounds",
    "C34_unsigned",
    "C34_bool",
    "C34_sign",
    "C34_thread",
    "C34_unsigned_refuted",
    "C34_bool_refuted",
    "C34_total_refuted"
   ],
   "note": "exact characterisation of the accepted values; negative numbers for unsigned options, abbreviated words and the empty string are accepted, refuted with witnesses; translate-pb (a floating point number) is not modelled"
  },
  {
   "property": "C35",
   "status": "partial",
   "theorems": [
    "C35_options",
    "C35_repeated",
    "C35_configure",
    "C35_configure_refuted"
   ],
   "note": "exact for command line options; with clingcon_configure the last setting counts, so the order matters, refuted with a witness"
  },
  {
   "property": "C36",
   "status": "proved",
   "theorems": [
    "C36_sum",
    "C36_reset"
   ],
   "note": "counters modulo 2^64; times are exact numbers"
  },
  {
   "property": "C37",
   "status": "proved",
   "theorems": [
    "C37_meaning",
    "C37_unchanged",
    "C37_shifted",
    "C37_diff_refuted"
   ],
   "note": "rules of any shape; a positive &diff is turned into a head with a relation that the theory definition rejects, refuted with a witness"
  },
  {
   "property": "C38",
   "status": "proved",
   "theorems": [
    "C38_merge",
    "C38_kept",
    "C38_names"
   ],
   "note": "theory terms are not evaluated by the grounder; anonymous variables are ignored; fewer than 2^31 elements"
  },
  {
   "property": "C39",
   "status": "proved",
   "theorems": [
    "C39_storage",
    "C39_nearest_below",
    "C39_nearest_above"
   ],
   "note": "Both storages (ordered map and dense vector) refine a finite map over every sequence of operations, including the switch."
  },
  {
   "property": "C40",
   "status": "proved",
   "theorems": [
    "C40_copied",
    "C40_defined"
   ],
   "note": "the static variable mark and the flag for a translated objective are not copied"
  },
  {
   "property": "C41",
   "status": "proved",
   "theorems": [
    "C41_translate",
    "C41_accepted",
    "C41_same",
    "C41_solutions",
    "C41_ends",
    "C41_defined"
   ],
   "note": "whole translation loop with removal and order clauses, for arbitrary choices of what is translated how; stored bounds are up to date and no facts are pending when it starts; acceptance means satisfying clasp's knowledge, the order literals and the remaining constraints"
  },
  {
   "property": "C42",
   "status": "proved",
   "theorems": [
    "C42_chained",
    "C42_removal",
    "C42_neighbours_suffice"
   ],
   "note": ""
  },
  {
   "property": "C43",
   "status": "proved",
   "theorems": [
    "C43_delivered",
    "C43_meaning",
    "C43_failed",
    "C43_control"
   ],
   "note": ""
  },
  {
   "property": "C44",
   "status": "proved",
   "theorems": [
    "C44_removal"
   ],
   "note": ""
  },
  {
   "property": "C45",
   "status": "partial",
   "theorems": [
    "C45_undecided",
    "C45_fallback",
    "C45_zero_refuted"
   ],
   "note": "undecided whenever bounds and truth values agree; in the situation of C29_delayed_refuted literal 0 is returned"
  },
  {
   "property": "C46",
   "status": "proved",
   "theorems": [
    "C46_kept",
    "C46_unsat"
   ],
   "note": "histories of propagate, check and undo with all kinds of constraints; literals of distinct and disjoint constraints count for checks above the top level, those of non-linear constraints do not count and coefficients of z are at least -1 (the code falsifies more, see C19, C22 and C24)"
  },
  {
   "property": "C47",
   "status": "partial",
   "theorems": [
    "C47_start",
    "C47_sound",
    "C47_complete_partial",
    "C47_unsat_partial",
    "C47_failed_partial",
    "C47_firmly",
    "C47_conditional_refuted",
    "C47_refused",
    "C47_objective",
    "C47_objective_kept"
   ],
   "note": "composition of the builder, simplification, objective, translation and search for one thread; soundness of answers is complete; that no solution is lost is proved except for solutions that violate the condition of a conditional distinct or disjoint constraint over more than two elements or of a conditional product (propagated on the top level as if unconditional), where it is false of the code, shown by a witness; products have coefficients of z of at least -1"
  },
  {
   "property": "C48",
   "status": "partial",
   "theorems": [
    "C48_check",
    "C48_undo",
    "C48_search",
    "C48_defined",
    "C48_accepts",
    "C48_room",
    "C48_overflow_refuted"
   ],
   "note": "histories of a search with the arithmetic of linear constraints in 32 and 64 bits; equal to unbounded integers if every sum, with its right-hand side and one more, fits into 64 bits, which the parser guarantees up to three below its limit; at the limit the slack overflows, refuted with a witness; the differences of bounds stored by propagate are not in machine types"
  },
  {
   "property": "C49",
   "status": "partial",
   "theorems": [
    "C49_sound",
    "C49_complete_partial",
    "C49_unsat_partial",
    "C49_failed_partial",
    "C49_rejected_partial",
    "C49_contradiction_partial",
    "C49_start",
    "C49_objective",
    "C49_one_product",
    "C49_defined"
   ],
   "note": "the parser runs on the real builder and its result is handed to C47; soundness is complete for the covered atoms; that no answer is lost is proved under the condition of C47 for conditional distinct and disjoint statements over more than two elements and for products; &nsum is covered in the head with at most one product (C49_one_product gives a condition on the text), domains without values are left out; if the parser reports a conflict the condition is not needed"
  },
  {
   "property": "C50",
   "status": "proved",
   "theorems": [
    "C50_check_ends",
    "C50_init_ends",
    "C50_program_ends"
   ],
   "note": "histories of a search and the first initialisation; the number of rounds of the loop of check is at most one more than the sum of the differences between bounds; the decision level does not change within a callback; for init clasp's trail is limited by the number of variables and does not become shorter"
  },
  {
   "property": "C51",
   "status": "partial",
   "theorems": [
    "C51_limits_partial",
    "C51_estimate",
    "C51_total_partial",
    "C51_total_refuted",
    "C51_distinct_partial",
    "C51_distinct_refuted"
   ],
   "note": "bounds are up to date and propagation found no conflict; the ratio is a fraction; the total limit and the limit for distinct constraints can be exceeded (refuted)"
  },
  {
   "property": "C52",
   "status": "partial",
   "theorems": [
    "C52_limit_partial",
    "C52_always",
    "C52_never_partial",
    "C52_limit_refuted",
    "C52_never_refuted"
   ],
   "note": "exact characterisation; the estimate is one too low per variable, so the limit can be exceeded and limit 0 can translate (both refuted)"
  }
 ]
}