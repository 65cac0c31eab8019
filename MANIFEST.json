{
 "claims": [
  {
   "property": "C01",
   "status": "proved",
   "theorems": [
    "C01_literal_encoding",
    "C01_model_literals"
   ],
   "note": "Machine-word encoding, and equivalence of the pairs used elsewhere in the model with the words."
  },
  {
   "property": "C02",
   "status": "proved",
   "theorems": [
    "C02_value_of_negation"
   ],
   "note": ""
  },
  {
   "property": "C03",
   "status": "proved",
   "theorems": [
    "C03_new_clause"
   ],
   "note": "Any reachable state at root level, any list of existing variables, any theories that meet the contract."
  },
  {
   "property": "C04",
   "status": "proved",
   "theorems": [
    "C04_search_preserves_models"
   ],
   "note": "Any theories that meet the contract."
  },
  {
   "property": "C05",
   "status": "proved",
   "theorems": [
    "C05_false_is_final",
    "C05_false_is_final_client"
   ],
   "note": "Also in client terms for a core without theories."
  },
  {
   "property": "C06",
   "status": "proved",
   "theorems": [
    "C06_termination",
    "C06_termination_no_theories"
   ],
   "note": "Explicit bound on the number of iterations; with theories, if they terminate."
  },
  {
   "property": "C07",
   "status": "proved",
   "theorems": [
    "C07_unit_propagation_complete",
    "C07_total_assignment_is_model"
   ],
   "note": ""
  },
  {
   "property": "C08",
   "status": "proved",
   "theorems": [
    "C08_values_are_consequences",
    "C08_values_are_consequences_client"
   ],
   "note": ""
  },
  {
   "property": "C09",
   "status": "proved",
   "theorems": [
    "C09_learned_clause_asserting",
    "C09_learned_clause_asserting_assume"
   ],
   "note": "For every conflict analysed during a call of propagate or assume."
  },
  {
   "property": "C10",
   "status": "proved",
   "theorems": [
    "C10_pop_undoes_assume"
   ],
   "note": ""
  },
  {
   "property": "C11",
   "status": "proved",
   "theorems": [
    "C11_no_undefined_behaviour",
    "C11_calls_return",
    "C11_next_redundant_refuted"
   ],
   "note": "For every call whose precondition holds; next() additionally needs that no decision was redundant (refuted otherwise)."
  },
  {
   "property": "C12",
   "status": "proved",
   "theorems": [
    "C12_check"
   ],
   "note": ""
  },
  {
   "property": "C13",
   "status": "partial",
   "theorems": [
    "C13_failed_check_partial",
    "C13_failed_check_refuted"
   ],
   "note": "Refuted as stated: a failed check may retract earlier decisions. Proved: the decisions that remain are the oldest ones and everything known at their levels is kept (and C12)."
  },
  {
   "property": "C14",
   "status": "proved",
   "theorems": [
    "C14_next"
   ],
   "note": "For decisions that were not redundant."
  },
  {
   "property": "C15",
   "status": "proved",
   "theorems": [
    "C15_new_conj"
   ],
   "note": ""
  },
  {
   "property": "C16",
   "status": "proved",
   "theorems": [
    "C16_new_disj"
   ],
   "note": ""
  },
  {
   "property": "C17",
   "status": "partial",
   "theorems": [
    "C17_new_eq_partial",
    "C17_polarity_refuted",
    "C17_half_reified_refuted"
   ],
   "note": "The code is half-reified and has a wrong polarity (two refutations); what holds is proved."
  },
  {
   "property": "C18",
   "status": "partial",
   "theorems": [
    "C18_at_most_one_partial",
    "C18_at_most_one_free",
    "C18_true_literal_refuted"
   ],
   "note": "Proved unless a literal is already true at root level (refuted there); conservativity and freedom of the control literal proved."
  },
  {
   "property": "C19",
   "status": "partial",
   "theorems": [
    "C19_exactly_one_partial",
    "C19_true_literal_refuted",
    "C19_negative_literal_refuted",
    "C19_shared_control_refuted"
   ],
   "note": "Soundness proved unless a literal is already true; conservativity for distinct positive literals with a new at-most-one; three refutations."
  },
  {
   "property": "C20",
   "status": "proved",
   "theorems": [
    "C20_keys_injective"
   ],
   "note": ""
  },
  {
   "property": "C21",
   "status": "proved",
   "theorems": [
    "C21_simplify_db",
    "C21_simplify_db_safe"
   ],
   "note": ""
  },
  {
   "property": "C22",
   "status": "proved",
   "theorems": [
    "C22_stack_push",
    "C22_stack_pop"
   ],
   "note": "For cores without theories; theories shared by the cores are C58."
  },
  {
   "property": "C23",
   "status": "proved",
   "theorems": [
    "C23_listeners"
   ],
   "note": "Assuming the listener outlives the core."
  },
  {
   "property": "C24",
   "status": "partial",
   "theorems": [
    "C24_addition_partial",
    "C24_addition_no_zero",
    "C24_addition_refuted"
   ],
   "note": "The statement is refuted: operator+ of two expressions adds the left known term twice. What the code computes, and the case of equal known terms, are proved; operator+= is right."
  },
  {
   "property": "C25",
   "status": "proved",
   "theorems": [
    "C25_arithmetic",
    "C25_no_zero"
   ],
   "note": ""
  },
  {
   "property": "C26",
   "status": "partial",
   "theorems": [
    "C26_scaling_partial",
    "C26_minus_partial",
    "C26_scaling_refuted",
    "C26_minus_refuted"
   ],
   "note": "Refuted: operator*= scales only the variables, unary minus of a non-constant ends in undefined behaviour. Proved for the cases in which it holds."
  },
  {
   "property": "C27",
   "status": "proved",
   "theorems": [
    "C27_bounds_enclose_value",
    "C27_bounds_enclose_rationals"
   ],
   "note": "For the delta-rational values and for every rational valuation within the bounds."
  },
  {
   "property": "C28",
   "status": "proved",
   "theorems": [
    "C28_pivot",
    "C28_reachable_tableaux"
   ],
   "note": ""
  },
  {
   "property": "C29",
   "status": "proved",
   "theorems": [
    "C29_values",
    "C29_values_after_conflict",
    "C29_values_of_network"
   ],
   "note": "Non-basic variables are within their bounds except after a conflict in the middle of an assertion; both cases are stated."
  },
  {
   "property": "C30",
   "status": "proved",
   "theorems": [
    "C30_check_true",
    "C30_check_safe"
   ],
   "note": "Partial correctness: termination of check() is not claimed here."
  },
  {
   "property": "C31",
   "status": "proved",
   "theorems": [
    "C31_check_false"
   ],
   "note": ""
  },
  {
   "property": "C32",
   "status": "proved",
   "theorems": [
    "C32_propagation_sound"
   ],
   "note": ""
  },
  {
   "property": "C33",
   "status": "proved",
   "theorems": [
    "C33_pop_restores"
   ],
   "note": ""
  },
  {
   "property": "C34",
   "status": "proved",
   "theorems": [
    "C34_new_lt",
    "C34_new_leq",
    "C34_new_geq",
    "C34_new_gt",
    "C34_new_eq",
    "C34_nonroot_refuted"
   ],
   "note": "At root level, as the property says; off root level it is refuted (C34_nonroot_refuted)."
  },
  {
   "property": "C35",
   "status": "partial",
   "theorems": [
    "C35_slack_value_partial",
    "C35_slack_of_basic_refuted"
   ],
   "note": "Proved when no basic variable occurs in the expression (any known term); refuted for expressions over basic variables."
  },
  {
   "property": "C36",
   "status": "proved",
   "theorems": [
    "C36_propagate_true",
    "C36_propagate_true_total",
    "C36_propagate_false",
    "C36_learned_valid",
    "C36_solutions"
   ],
   "note": "One LRA theory; the client history may contain any SAT-core call and any LRA call with slack definitions restricted as in C35; the 'unsatisfiable' direction excludes histories with new_at_most_one/new_exct_one/new_eq on literals, for which see C72."
  },
  {
   "property": "C37",
   "status": "proved",
   "theorems": [
    "C37_idl_distance",
    "C37_idl_triangle",
    "C37_rdl_distance",
    "C37_rdl_triangle"
   ],
   "note": ""
  },
  {
   "property": "C38",
   "status": "proved",
   "theorems": [
    "C38_idl_new_distance",
    "C38_rdl_new_distance",
    "C38_idl_conflict",
    "C38_rdl_conflict"
   ],
   "note": "rdl: constraint weights have infinitesimal part 0 or -1, the only ones the API creates."
  },
  {
   "property": "C39",
   "status": "proved",
   "theorems": [
    "C39_idl_pop",
    "C39_rdl_pop"
   ],
   "note": ""
  },
  {
   "property": "C40",
   "status": "partial",
   "theorems": [
    "C40_idl_constraints_partial",
    "C40_rdl_constraints_partial",
    "C40_idl_pop_refuted",
    "C40_rdl_pop_refuted"
   ],
   "note": "The enforced constraints and distances are restored by pop; the stored predecessors are not (refuted: an explanation after a pop can be invalid)."
  },
  {
   "property": "C41",
   "status": "partial",
   "theorems": [
    "C41_idl_valid_partial",
    "C41_rdl_valid_partial",
    "C41_idl_valid_refuted",
    "C41_rdl_valid_refuted"
   ],
   "note": "Explanations are valid without pop and with at most one constraint per pair of variables; refuted otherwise (C41_*_refuted)."
  },
  {
   "property": "C42",
   "status": "partial",
   "theorems": [
    "C42_idl_lt",
    "C42_idl_leq",
    "C42_idl_eq",
    "C42_idl_geq",
    "C42_rdl_lt",
    "C42_rdl_leq",
    "C42_rdl_eq",
    "C42_rdl_geq",
    "C42_rdl_gt",
    "C42_idl_gt_partial",
    "C42_idl_gt_refuted"
   ],
   "note": "All comparisons except idl new_gt over two variables with a positive first coefficient, which is refuted: the literal can never be true. Equality is at root level."
  },
  {
   "property": "C43",
   "status": "partial",
   "theorems": [
    "C43_idl_bounds_const_partial",
    "C43_idl_bounds_one_partial",
    "C43_idl_bounds_two_partial",
    "C43_rdl_bounds_const_partial",
    "C43_rdl_bounds_one_partial",
    "C43_idl_distance_partial",
    "C43_rdl_distance_partial",
    "C43_idl_matches_partial",
    "C43_rdl_matches_partial",
    "C43_idl_bounds_negative_refuted",
    "C43_rdl_bounds_negative_refuted",
    "C43_idl_bounds_factor_refuted",
    "C43_rdl_bounds_difference_refuted",
    "C43_idl_distance_known_refuted",
    "C43_rdl_distance_known_refuted",
    "C43_idl_matches_refuted",
    "C43_rdl_matches_refuted"
   ],
   "note": "Bounds of constants, of one variable with positive coefficient, of idl differences with unit coefficients; distance of pure differences; matches with unit coefficients and equal known terms. The rest is refuted: negative coefficient, common factor, reversed rdl difference, ignored known terms."
  },
  {
   "property": "C44",
   "status": "proved",
   "theorems": [
    "C44_idl_new_var",
    "C44_rdl_new_var"
   ],
   "note": ""
  },
  {
   "property": "C45",
   "status": "proved",
   "theorems": [
    "C45_exactly_one",
    "C45_free",
    "C45_given_literals",
    "C45_allows_stable",
    "C45_value",
    "C45_value_keeps_solutions",
    "C45_value_when_assigned"
   ],
   "note": "new_var (enforced, free, from literals), allows, value; all iteration orders of maps and sets; needs a consistent root-level state for the enforced form (otherwise the assert of the code fails)."
  },
  {
   "property": "C46",
   "status": "proved",
   "theorems": [
    "C46_meaning",
    "C46_iff_same_value",
    "C46_conservative",
    "C46_same_variable",
    "C46_no_common_value",
    "C46_again",
    "C46_multivalued_refuted",
    "C46_multivalued_abort_refuted"
   ],
   "note": "Meaning in all models, iff same value for single-valued variables, conservative, symmetric, cached; refutations show that for multi-valued variables (enforce_exct_one=false) creating the literal discards solutions and may abort."
  },
  {
   "property": "C47",
   "status": "proved",
   "theorems": [
    "C47_matches",
    "C47_matches_values"
   ],
   "note": ""
  },
  {
   "property": "C48",
   "status": "partial",
   "theorems": [
    "C48_sticky_refuted"
   ],
   "note": "Refuted, with a witness."
  },
  {
   "property": "C49",
   "status": "proved",
   "theorems": [
    "C49_idl_check",
    "C49_rdl_check"
   ],
   "note": ""
  },
  {
   "property": "C50",
   "status": "proved",
   "theorems": [
    "C50_idl_shape",
    "C50_rdl_shape"
   ],
   "note": ""
  },
  {
   "property": "C51",
   "status": "proved",
   "theorems": [
    "C51_idl_complete",
    "C51_rdl_complete"
   ],
   "note": ""
  },
  {
   "property": "C52",
   "status": "proved",
   "theorems": [
    "C52_idl_listeners",
    "C52_rdl_listeners"
   ],
   "note": ""
  },
  {
   "property": "C53",
   "status": "proved",
   "theorems": [
    "C53_idl_solution",
    "C53_rdl_solution"
   ],
   "note": ""
  },
  {
   "property": "C54",
   "status": "proved",
   "theorems": [
    "C54_idl_throws",
    "C54_rdl_throws"
   ],
   "note": ""
  },
  {
   "property": "C55",
   "status": "partial",
   "theorems": [
    "C55_listener_hears_partial",
    "C55_late_registration_refuted"
   ],
   "note": "Proved for registrations made while all values are open; refuted for registrations made while a value is excluded by a decision."
  },
  {
   "property": "C56",
   "status": "proved",
   "theorems": [
    "C56_models_respect",
    "C56_nothing_more",
    "C56_false_is_unsat",
    "C56_rejected_clause",
    "C56_total_is_solution",
    "C56_calls_are_answered"
   ],
   "note": "End to end. The directions 'extends to a model' and 'false means none' are for histories whose core-level calls are not new_eq/new_at_most_one/new_exct_one on literals (C15-C19, C71 cover these for the core); the other directions are for all histories."
  },
  {
   "property": "C57",
   "status": "proved",
   "theorems": [
    "C57_check_terminates",
    "C57_propagate_terminates"
   ],
   "note": "Bland's rule: at most 6^n iterations for n numeric variables, any order of the hash containers; combined with the bound of C06 for the whole of propagate()."
  },
  {
   "property": "C58",
   "status": "partial",
   "theorems": [
    "C58_shared_theory_partial",
    "C58_theory_atom_refuted",
    "C58_theory_open_decision_refuted",
    "C58_stack_histories_partial",
    "C58_nested_partial",
    "C58_theories_again"
   ],
   "note": "Proved when the pushed core creates no constraint of the theory and is popped at its root level (also after it reported an inconsistency); otherwise refuted: a comparison created in the pushed core stays in the theory's cache with a literal the core does not have, and pop above root level undoes only the topmost level of the theory. Any number of theories, any nesting; the condition th_again (a check that has succeeded does not fail when it is repeated) is proved of LRA, OV and their sum. Nothing else is missing."
  },
  {
   "property": "C59",
   "status": "proved",
   "theorems": [
    "C59_stack_listeners"
   ],
   "note": ""
  },
  {
   "property": "C60",
   "status": "proved",
   "theorems": [
    "C60_theories_are_told"
   ],
   "note": ""
  },
  {
   "property": "C61",
   "status": "proved",
   "theorems": [
    "C61_value_listeners",
    "C61_only_registered",
    "C61_same_answers",
    "C61_late_registration_refuted"
   ],
   "note": "C61_value_listeners, C61_only_registered, C61_same_answers; C61_late_registration_refuted shows that the proviso on the bounds is needed."
  },
  {
   "property": "C62",
   "status": "proved",
   "theorems": [
    "C62_values_kept",
    "C62_root_values_final"
   ],
   "note": "C62_values_kept, C62_root_values_final (core with any theories meeting the contract)."
  },
  {
   "property": "C63",
   "status": "partial",
   "theorems": [
    "C63_idl_returns_partial",
    "C63_rdl_returns_partial",
    "C63_idl_false_partial",
    "C63_rdl_false_partial",
    "C63_idl_clause_false_partial",
    "C63_rdl_clause_false_partial",
    "C63_idl_implied_partial",
    "C63_rdl_implied_partial",
    "C63_idl_distance_partial",
    "C63_rdl_distance_partial",
    "C63_idl_true_partial",
    "C63_rdl_true_partial",
    "C63_idl_hull_partial",
    "C63_rdl_hull_partial",
    "C63_idl_decisions_refuted",
    "C63_rdl_decisions_refuted",
    "C63_idl_two_constraints_refuted",
    "C63_rdl_two_constraints_refuted",
    "C63_idl_two_decisions_refuted",
    "C63_rdl_two_decisions_refuted"
   ],
   "note": "proved for all histories without assume and pop (root level); the full statement is refuted by the code: C63_idl_decisions_refuted, C63_rdl_decisions_refuted (assume b1, assume b2, pop, pop, then clauses b1 and b3: propagate returns false although x2 - x1 = 8 is a solution); and more sharply: one decision with two constraints on a pair (C63_*_two_constraints_refuted), two decisions with one constraint for each pair (C63_*_two_decisions_refuted); one decision with one constraint for each pair is proved as C73"
  },
  {
   "property": "C64",
   "status": "proved",
   "theorems": [
    "C64_expressions",
    "C64_assertions",
    "C64_object_equalities",
    "C64_find_expression",
    "C64_find_assertion",
    "C64_find_object_equality"
   ],
   "note": "utils::to_string is not in the repository: what is needed of it is the record printer (LraKeys.v), for inf_rational injectivity; dec_printer is an instance"
  },
  {
   "property": "C65",
   "status": "partial",
   "theorems": [
    "C65_lra_answers_partial",
    "C65_idl_same_partial",
    "C65_rdl_same_partial",
    "C65_lra_unbound_refuted",
    "C65_lra_equation_refuted",
    "C65_idl_unbound_refuted",
    "C65_rdl_unbound_refuted"
   ],
   "note": "Queries agree at any point of any history (LRA), the copied difference theories are identical to the original. That the copy goes on enforcing its constraints is refuted: nothing is bound to the copy, and an LRA copy registers no row, so that the equations of its slack variables are lost even for comparisons created on the copy."
  },
  {
   "property": "C66",
   "status": "proved",
   "theorems": [
    "C66_set_bound",
    "C66_set_values",
    "C66_set_undone",
    "C66_set_fixes"
   ],
   "note": ""
  },
  {
   "property": "C67",
   "status": "proved",
   "theorems": [
    "C67_models_respect",
    "C67_nothing_more",
    "C67_propagate_true",
    "C67_total_is_solution",
    "C67_false_is_unsat",
    "C67_rejected_clause",
    "C67_deductions_follow",
    "C67_theories_kept_apart",
    "C67_calls_are_answered",
    "C67_same_calls"
   ],
   "note": "Two theories of different kinds on one core (plus SAT calls). The contract of a sum is ThSum.v; Mix*.v instantiates it and proves the end-to-end statements. C67_same_calls ties the mixed calls to the model of the arithmetic theory alone. The directions 'nothing more' and 'false means none' are for histories without core-level new_eq/new_at_most_one/new_exct_one (see C71)."
  },
  {
   "property": "C68",
   "status": "proved",
   "theorems": [
    "C68_core_determined",
    "C68_core_faithful",
    "C68_no_unit_shown",
    "C68_arithmetic_determined",
    "C68_arithmetic_faithful",
    "C68_documents_solved"
   ],
   "note": "The JSON library and the printing of numbers are not in the repository: documents are abstract syntax, and the printing of numbers is any function that tells different numbers apart (es0 is one)."
  },
  {
   "property": "C69",
   "status": "proved",
   "theorems": [
    "C69_reported_conflict",
    "C69_recorded_clause",
    "C69_histories",
    "C69_single_literal_refuted",
    "C69_reported_clause_holds_refuted"
   ],
   "note": "Two limits are shown by _refuted theorems: a conflict of a single literal above root level fails an assertion, and the reported clause itself is not stored, so that it may still be violated when the call answers true (the theory's next check must find it again)."
  },
  {
   "property": "C70",
   "status": "partial",
   "theorems": [
    "C70_destroyed_theory_partial",
    "C70_before",
    "C70_destroyed_theory_refuted",
    "C70_destroyed_listener_refuted"
   ],
   "note": "The destructors remove the object from theories / listeners but not from bounds / listening: shown by two _refuted theorems (a destroyed LRA theory is called by the next assume; a destroyed listener is notified). The positive theorem asks that the theory be bound to no variable any more."
  },
  {
   "property": "C71",
   "status": "proved",
   "theorems": [
    "C71_answers_hold",
    "C71_nothing_more",
    "C71_propagate_false",
    "C71_clause_false",
    "C71_check_false",
    "C71_values",
    "C71_total_assignment"
   ],
   "note": "The restrictions on the lists and on the equalities are those under which C17-C19 hold; the cases left out are refuted there."
  },
  {
   "property": "C72",
   "status": "proved",
   "theorems": [
    "C72_answers_hold",
    "C72_nothing_more",
    "C72_propagate_false",
    "C72_clause_false",
    "C72_check_false",
    "C72_values",
    "C72_total_assignment"
   ],
   "note": "The conditions on the lists and equalities are those of C71."
  },
  {
   "property": "C73",
   "status": "proved",
   "theorems": [
    "C73_idl_covered",
    "C73_rdl_covered",
    "C73_idl_returns",
    "C73_rdl_returns",
    "C73_idl_false",
    "C73_rdl_false",
    "C73_idl_clause_false",
    "C73_rdl_clause_false",
    "C73_idl_refused",
    "C73_rdl_refused",
    "C73_idl_check_false",
    "C73_rdl_check_false",
    "C73_idl_next_false",
    "C73_rdl_next_false",
    "C73_idl_implied",
    "C73_rdl_implied",
    "C73_idl_distance",
    "C73_rdl_distance",
    "C73_idl_true",
    "C73_rdl_true",
    "C73_idl_hull",
    "C73_rdl_hull"
   ],
   "note": "All calls but the equality and the two-sided distance (they put two constraints on a pair)."
  },
  {
   "property": "C74",
   "status": "proved",
   "theorems": [
    "C74_search_decides",
    "C74_clauses",
    "C74_lra",
    "C74_ov_lra"
   ],
   "note": "A general theorem for every theory that satisfies the contract, answers and decides its atoms; instances for a bare core, LRA, and OV + LRA. The client's loop is not in the repository."
  },
  {
   "property": "C75",
   "status": "proved",
   "theorems": [
    "C75_all_once",
    "C75_clauses",
    "C75_lra",
    "C75_answers",
    "C75_answers_lra",
    "C75_answers_ov_lra"
   ],
   "note": "General theorem for every theory with a contract that decides its atoms; instances for a bare core, LRA, and OV + LRA. With equalities, at-most-one and exactly-one constraints two of the listed assignments may differ in auxiliary variables only (C75_answers*). The client's loop is not in the repository."
  },
  {
   "property": "C76",
   "status": "proved",
   "theorems": [
    "C76_same_verdict",
    "C76_same_verdict_lra",
    "C76_same_solutions"
   ],
   "note": "Core alone, and core with LRA."
  },
  {
   "property": "C77",
   "status": "partial",
   "theorems": [
    "C77_add_self_partial",
    "C77_sub_self_partial",
    "C77_sub_self_refuted"
   ],
   "note": "Refuted for -=: the element on which the range-for stands is erased, undefined behaviour for every expression with a variable. += is right; -= is right for constants."
  },
  {
   "property": "C78",
   "status": "partial",
   "theorems": [
    "C78_new_clause",
    "C78_new_conj",
    "C78_new_disj",
    "C78_at_most_one_partial",
    "C78_exactly_one_partial",
    "C78_any_sort",
    "C78_any_sort_counting_partial",
    "C78_order_refuted",
    "C78_sort_refuted",
    "C78_repetition_refuted"
   ],
   "note": "Proved for clauses, conjunctions and disjunctions; for at-most-one and exactly-one only when no unassigned literal is given together with its negation. Refuted otherwise: with x, !x, x the first order forces x to be false, the order x, x, !x does not, and two sorts differ on the same call; a true literal given twice counts twice."
  },
  {
   "property": "C79",
   "status": "partial",
   "theorems": [
    "C79_idl_models_respect_partial",
    "C79_rdl_models_respect_partial",
    "C79_idl_nothing_more_partial",
    "C79_rdl_nothing_more_partial",
    "C79_idl_false_partial",
    "C79_rdl_false_partial",
    "C79_idl_clause_false_partial",
    "C79_rdl_clause_false_partial",
    "C79_idl_implied_partial",
    "C79_rdl_implied_partial",
    "C79_idl_encloses_partial",
    "C79_rdl_encloses_partial",
    "C79_idl_true_partial",
    "C79_rdl_true_partial",
    "C79_idl_hull_partial",
    "C79_rdl_hull_partial",
    "C79_idl_returns_partial",
    "C79_rdl_returns_partial",
    "C79_idl_kept_apart_partial",
    "C79_rdl_kept_apart_partial",
    "C79_same_calls",
    "C79_idl_decisions_refuted"
   ],
   "note": "Proved for all histories without assume and pop (root level), for idl and rdl; once decisions are made the statement is refuted as for C63 (C79_idl_decisions_refuted)."
  },
  {
   "property": "C80",
   "status": "proved",
   "theorems": [
    "C80_same_answer",
    "C80_listeners_do_nothing",
    "C80_listen_returns",
    "C80_lra_listeners_do_nothing"
   ],
   "note": "Listeners are seen as what the code makes of them: entries in the tables of the core and of the theory, notified by calls that are recorded in a log; a callback that itself calls the network is not modelled (as everywhere)."
  },
  {
   "property": "C81",
   "status": "proved",
   "theorems": [
    "C81_same_answer",
    "C81_history",
    "C81_returns",
    "C81_bounds",
    "C81_expression_distance",
    "C81_matches",
    "C81_large_weights_refuted",
    "C81_overflow_refuted",
    "C81_infinite_bounds_refuted",
    "C81_decisions",
    "C81_solution_fits"
   ],
   "note": "The condition is stated on the calls only. The theorems named _refuted show on 64-bit integers what happens without it. Rational arithmetic (utils, not in the repository) stays exact. Queries on expressions: bounds with one variable, when finite; distance: all; matches: coefficients 1 and known terms below inf()."
  }
 ]
}