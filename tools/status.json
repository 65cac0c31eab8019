{
 "C01": [
  "proved",
  "Machine-word encoding, and equivalence of the pairs used elsewhere in the model with the words."
 ],
 "C02": [
  "proved",
  ""
 ],
 "C03": [
  "proved",
  "Any reachable state at root level, any list of existing variables, any theories that meet the contract."
 ],
 "C04": [
  "proved",
  "Any theories that meet the contract."
 ],
 "C05": [
  "proved",
  "Also in client terms for a core without theories."
 ],
 "C06": [
  "proved",
  "Explicit bound on the number of iterations; with theories, if they terminate."
 ],
 "C07": [
  "proved",
  ""
 ],
 "C08": [
  "proved",
  ""
 ],
 "C09": [
  "proved",
  "For every conflict analysed during a call of propagate or assume."
 ],
 "C10": [
  "proved",
  ""
 ],
 "C11": [
  "proved",
  "For every call whose precondition holds; next() additionally needs that no decision was redundant (refuted otherwise)."
 ],
 "C12": [
  "proved",
  ""
 ],
 "C13": [
  "partial",
  "Refuted as stated: a failed check may retract earlier decisions. Proved: the decisions that remain are the oldest ones and everything known at their levels is kept (and C12)."
 ],
 "C14": [
  "proved",
  "For decisions that were not redundant."
 ],
 "C15": [
  "proved",
  ""
 ],
 "C16": [
  "proved",
  ""
 ],
 "C17": [
  "partial",
  "The code is half-reified and has a wrong polarity (two refutations); what holds is proved."
 ],
 "C18": [
  "partial",
  "Proved unless a literal is already true at root level (refuted there); conservativity and freedom of the control literal proved."
 ],
 "C19": [
  "partial",
  "Soundness proved unless a literal is already true; conservativity for distinct positive literals with a new at-most-one; three refutations."
 ],
 "C20": [
  "proved",
  ""
 ],
 "C21": [
  "proved",
  ""
 ],
 "C22": [
  "proved",
  "For cores without theories; theories shared by the cores are C58."
 ],
 "C23": [
  "proved",
  "Assuming the listener outlives the core."
 ],
 "C48": [
  "partial",
  "Refuted, with a witness."
 ],
 "C24": [
  "partial",
  "The statement is refuted: operator+ of two expressions adds the left known term twice. What the code computes, and the case of equal known terms, are proved; operator+= is right."
 ],
 "C25": [
  "proved",
  ""
 ],
 "C26": [
  "partial",
  "Refuted: operator*= scales only the variables, unary minus of a non-constant ends in undefined behaviour. Proved for the cases in which it holds."
 ],
 "C27": [
  "proved",
  "For the delta-rational values and for every rational valuation within the bounds."
 ],
 "C28": [
  "proved",
  ""
 ],
 "C29": [
  "proved",
  "Non-basic variables are within their bounds except after a conflict in the middle of an assertion; both cases are stated."
 ],
 "C30": [
  "proved",
  "Partial correctness: termination of check() is not claimed here."
 ],
 "C31": [
  "proved",
  ""
 ],
 "C32": [
  "proved",
  ""
 ],
 "C33": [
  "proved",
  ""
 ],
 "C34": [
  "proved",
  "At root level, as the property says; off root level it is refuted (C34_nonroot_refuted)."
 ],
 "C35": [
  "partial",
  "Proved when no basic variable occurs in the expression (any known term); refuted for expressions over basic variables."
 ],
 "C36": [
  "proved",
  "One LRA theory; the client history may contain any SAT-core call and any LRA call with slack definitions restricted as in C35; the 'unsatisfiable' direction excludes histories with new_at_most_one/new_exct_one/new_eq on literals, for which see C72."
 ],
 "C47": [
  "proved",
  ""
 ],
 "C37": [
  "proved",
  ""
 ],
 "C39": [
  "proved",
  ""
 ],
 "C44": [
  "proved",
  ""
 ],
 "C49": [
  "proved",
  ""
 ],
 "C50": [
  "proved",
  ""
 ],
 "C51": [
  "proved",
  ""
 ],
 "C52": [
  "proved",
  ""
 ],
 "C53": [
  "proved",
  ""
 ],
 "C54": [
  "proved",
  ""
 ],
 "C38": [
  "proved",
  "rdl: constraint weights have infinitesimal part 0 or -1, the only ones the API creates."
 ],
 "C40": [
  "partial",
  "The enforced constraints and distances are restored by pop; the stored predecessors are not (refuted: an explanation after a pop can be invalid)."
 ],
 "C41": [
  "partial",
  "Explanations are valid without pop and with at most one constraint per pair of variables; refuted otherwise (C41_*_refuted)."
 ],
 "C42": [
  "partial",
  "All comparisons except idl new_gt over two variables with a positive first coefficient, which is refuted: the literal can never be true. Equality is at root level."
 ],
 "C43": [
  "partial",
  "Bounds of constants, of one variable with positive coefficient, of idl differences with unit coefficients; distance of pure differences; matches with unit coefficients and equal known terms. The rest is refuted: negative coefficient, common factor, reversed rdl difference, ignored known terms."
 ],
 "C45": [
  "proved",
  "new_var (enforced, free, from literals), allows, value; all iteration orders of maps and sets; needs a consistent root-level state for the enforced form (otherwise the assert of the code fails)."
 ],
 "C46": [
  "proved",
  "Meaning in all models, iff same value for single-valued variables, conservative, symmetric, cached; refutations show that for multi-valued variables (enforce_exct_one=false) creating the literal discards solutions and may abort."
 ],
 "C55": [
  "partial",
  "Proved for registrations made while all values are open; refuted for registrations made while a value is excluded by a decision."
 ],
 "C56": [
  "proved",
  "End to end. The directions 'extends to a model' and 'false means none' are for histories whose core-level calls are not new_eq/new_at_most_one/new_exct_one on literals (C15-C19, C71 cover these for the core); the other directions are for all histories."
 ],
 "C57": [
  "proved",
  "Bland's rule: at most 6^n iterations for n numeric variables, any order of the hash containers; combined with the bound of C06 for the whole of propagate()."
 ],
 "C58": [
  "partial",
  "Proved when the pushed core creates no constraint of the theory and is popped at its root level (also after it reported an inconsistency); otherwise refuted: a comparison created in the pushed core stays in the theory's cache with a literal the core does not have, and pop above root level undoes only the topmost level of the theory. Any number of theories, any nesting; the condition th_again (a check that has succeeded does not fail when it is repeated) is proved of LRA, OV and their sum. Nothing else is missing."
 ],
 "C59": [
  "proved",
  ""
 ],
 "C60": [
  "proved",
  ""
 ],
 "C61": [
  "proved",
  "C61_value_listeners, C61_only_registered, C61_same_answers; C61_late_registration_refuted shows that the proviso on the bounds is needed."
 ],
 "C62": [
  "proved",
  "C62_values_kept, C62_root_values_final (core with any theories meeting the contract)."
 ],
 "C63": [
  "partial",
  "proved for all histories without assume and pop (root level); the full statement is refuted by the code: C63_idl_decisions_refuted, C63_rdl_decisions_refuted (assume b1, assume b2, pop, pop, then clauses b1 and b3: propagate returns false although x2 - x1 = 8 is a solution); and more sharply: one decision with two constraints on a pair (C63_*_two_constraints_refuted), two decisions with one constraint for each pair (C63_*_two_decisions_refuted); one decision with one constraint for each pair is proved as C73"
 ],
 "C64": [
  "proved",
  "utils::to_string is not in the repository: what is needed of it is the record printer (LraKeys.v), for inf_rational injectivity; dec_printer is an instance"
 ],
 "C65": [
  "partial",
  "Queries agree at any point of any history (LRA), the copied difference theories are identical to the original. That the copy goes on enforcing its constraints is refuted: nothing is bound to the copy, and an LRA copy registers no row, so that the equations of its slack variables are lost even for comparisons created on the copy."
 ],
 "C66": [
  "proved",
  ""
 ],
 "C67": [
  "proved",
  "Two theories of different kinds on one core (plus SAT calls). The contract of a sum is ThSum.v; Mix*.v instantiates it and proves the end-to-end statements. C67_same_calls ties the mixed calls to the model of the arithmetic theory alone. The directions 'nothing more' and 'false means none' are for histories without core-level new_eq/new_at_most_one/new_exct_one (see C71)."
 ],
 "C68": [
  "proved",
  "The JSON library and the printing of numbers are not in the repository: documents are abstract syntax, and the printing of numbers is any function that tells different numbers apart (es0 is one)."
 ],
 "C69": [
  "proved",
  "Two limits are shown by _refuted theorems: a conflict of a single literal above root level fails an assertion, and the reported clause itself is not stored, so that it may still be violated when the call answers true (the theory's next check must find it again)."
 ],
 "C70": [
  "partial",
  "The destructors remove the object from theories / listeners but not from bounds / listening: shown by two _refuted theorems (a destroyed LRA theory is called by the next assume; a destroyed listener is notified). The positive theorem asks that the theory be bound to no variable any more."
 ],
 "C71": [
  "proved",
  "The restrictions on the lists and on the equalities are those under which C17-C19 hold; the cases left out are refuted there."
 ],
 "C72": [
  "proved",
  "The conditions on the lists and equalities are those of C71."
 ],
 "C73": [
  "proved",
  "All calls but the equality and the two-sided distance (they put two constraints on a pair)."
 ],
 "C74": [
  "proved",
  "A general theorem for every theory that satisfies the contract, answers and decides its atoms; instances for a bare core, LRA, and OV + LRA. The client's loop is not in the repository."
 ],
 "C75": [
  "proved",
  "General theorem for every theory with a contract that decides its atoms; instances for a bare core, LRA, and OV + LRA. With equalities, at-most-one and exactly-one constraints two of the listed assignments may differ in auxiliary variables only (C75_answers*). The client's loop is not in the repository."
 ],
 "C76": [
  "proved",
  "Core alone, and core with LRA."
 ],
 "C77": [
  "partial",
  "Refuted for -=: the element on which the range-for stands is erased, undefined behaviour for every expression with a variable. += is right; -= is right for constants."
 ],
 "C78": [
  "partial",
  "Proved for clauses, conjunctions and disjunctions; for at-most-one and exactly-one only when no unassigned literal is given together with its negation. Refuted otherwise: with x, !x, x the first order forces x to be false, the order x, x, !x does not, and two sorts differ on the same call; a true literal given twice counts twice."
 ],
 "C79": [
  "partial",
  "Proved for all histories without assume and pop (root level), for idl and rdl; once decisions are made the statement is refuted as for C63 (C79_idl_decisions_refuted)."
 ],
 "C80": [
  "proved",
  "Listeners are seen as what the code makes of them: entries in the tables of the core and of the theory, notified by calls that are recorded in a log; a callback that itself calls the network is not modelled (as everywhere)."
 ],
 "C81": [
  "proved",
  "The condition is stated on the calls only. The theorems named _refuted show on 64-bit integers what happens without it. Rational arithmetic (utils, not in the repository) stays exact. Queries on expressions: bounds with one variable, when finite; distance: all; matches: coefficients 1 and known terms below inf()."
 ]
}