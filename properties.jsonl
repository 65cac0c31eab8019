{"id": "C01", "title": "literal encoding round-trips", "statement": "variable(lit(v,s)) = v, sign(lit(v,s)) = s, lit equality is equality of (variable, sign), and no such literal is the undefined literal, for every representable variable; negation is an involution that keeps the variable, flips the sign, never maps a literal to itself; the default literal is the undefined one; TRUE_lit = !FALSE_lit.", "quantifier": "all 64-bit variables below 2^63-1, both signs, including the wrap-around of the sentinel", "why_tests_cant": "2^64 encodings incl. wrap-around; tests try three", "anchors": ["include/lit.h: lit, variable, sign, operator!, is_undefined", "include/defs.h"]}
{"id": "C02", "title": "value of a negated literal", "statement": "value(!p) is the three-valued negation of value(p), in every state of the core.", "quantifier": "all states, all literals", "why_tests_cant": "ranges over every reachable assignment", "anchors": ["include/sat_core.h: value"]}
{"id": "C03", "title": "new_clause has exactly the meaning of its disjunction", "statement": "At root level, new_clause(ls) leaves a network whose models are exactly the previous models that satisfy at least one literal of ls, whatever the order, duplicates, complementary pairs, already true/false literals; it returns false only if no model remains.", "quantifier": "all clause lists, all reachable root-level states", "why_tests_cant": "simplification cases (true, false, duplicate, tautology) combine with every assignment", "anchors": ["src/sat_core.cpp: sat_core::new_clause"]}
{"id": "C04", "title": "assume/propagate/pop/check/simplify_db never change the set of models", "statement": "assume, propagate, pop, check and simplify_db never add or lose a model of the network: learned no-goods, theory lemmas and unit facts are consequences of what the user stated.", "quantifier": "all reachable states, all operation histories", "why_tests_cant": "needs every conflict history; one wrong no-good silently loses solutions", "anchors": ["src/sat_core.cpp: propagate, analyze, record, simplify_db", "src/theory.cpp: analyze_and_backjump"]}
{"id": "C05", "title": "propagate returns false only when the network is definitely inconsistent", "statement": "If propagate() returns false there is no total assignment satisfying all clauses, facts and theories (README: 'returning false only in case the network becomes definitely inconsistent, independently from possible subsequent assignments').", "quantifier": "all reachable states", "why_tests_cant": "unsatisfiability is a universally quantified statement", "anchors": ["src/sat_core.cpp: propagate", "README.md: Usage"]}
{"id": "C06", "title": "propagate terminates", "statement": "propagate() terminates from every reachable state of a core without theories (conflicts, backjumps and re-propagation included).", "quantifier": "all reachable states", "why_tests_cant": "non-termination cannot be observed by a finite test", "anchors": ["src/sat_core.cpp: propagate, analyze"]}
{"id": "C07", "title": "after propagate returns true no clause is falsified or unit", "statement": "When propagate() has returned true (no theories), every problem or learned clause has a true literal or at least two unassigned literals: unit propagation is complete, so a total assignment is a model of every clause.", "quantifier": "all reachable states and histories of assume/pop/backjump", "why_tests_cant": "two-watched-literal schemes fail only on particular backtracking histories", "anchors": ["src/clause.cpp: clause::propagate", "src/sat_core.cpp: propagate, record"]}
{"id": "C08", "title": "every assigned value is a consequence of the decisions", "statement": "Every literal that is true after any operation sequence holds in every model of the network that satisfies the current decisions; values at root level hold in every model.", "quantifier": "all reachable states", "why_tests_cant": "needs all models of all networks", "anchors": ["src/sat_core.cpp: enqueue, propagate, record"]}
{"id": "C09", "title": "a learned no-good is asserting", "statement": "On a conflict above root level, analysis produces a clause implied by the network, whose first literal is the negation of one literal of the conflict level, whose other literals are all false strictly below the conflict level, and the back-jump level is the highest level among them (so it becomes unit there).", "quantifier": "all reachable conflicts", "why_tests_cant": "all implication graphs", "anchors": ["src/sat_core.cpp: analyze, record"]}
{"id": "C10", "title": "pop undoes assume", "statement": "If assume(p) succeeds without a conflict (the decision level grew by one), then pop() restores all values, levels, reasons, the trail and the decisions to what they were before assume.", "quantifier": "all reachable states, all literals", "why_tests_cant": "every propagation outcome in between", "anchors": ["src/sat_core.cpp: assume, pop, pop_one"]}
{"id": "C11", "title": "no undefined behaviour in the SAT core", "statement": "From any reachable state, with in-range literals and the asserted preconditions (root level, empty queue), no assertion in sat_core/clause/theory glue can fail, no vector is read out of bounds or popped when empty, and no dangling or missing watch is erased.", "quantifier": "all operation histories", "why_tests_cant": "assertion failures depend on histories; tests only run a few", "anchors": ["src/sat_core.cpp: asserts in analyze/record/next/simplify_db", "src/clause.cpp: ~clause, simplify, get_reason"]}
{"id": "C12", "title": "check is a sound consistency probe and, when it succeeds, side-effect free", "statement": "check(ls) returning false implies that the network has no model satisfying the current decisions and ls; returning true leaves every value, the trail and the decisions as they were.", "quantifier": "all reachable states, all lists of literals", "why_tests_cant": "quantifies over all models and all histories", "anchors": ["src/sat_core.cpp: check"]}
{"id": "C13", "title": "a failed check leaves the decisions in place", "statement": "check(ls) returning false leaves the current decisions as they were.", "quantifier": "all reachable states", "why_tests_cant": "needs a learned unit clause that backjumps below the calling level", "anchors": ["src/sat_core.cpp: check"]}
{"id": "C14", "title": "next excludes exactly the current combination of decisions", "statement": "next() removes from the network exactly the models which satisfy all the current decisions, and returns false only if nothing is left (or at root level).", "quantifier": "all reachable states with at least one decision, no decision being redundant (assumed when already true)", "why_tests_cant": "enumeration correctness is about all models", "anchors": ["src/sat_core.cpp: next"]}
{"id": "C15", "title": "new_conj reifies the conjunction", "statement": "new_conj(ls) returns a literal that, in every model of the resulting network, is true iff all of ls are true; and every model of the previous network extends to one of the resulting network.", "quantifier": "all literal lists (duplicates, complementary, assigned), all reachable root-level states, all earlier reifications (cache)", "why_tests_cant": "cache hits and simplifications depend on history", "anchors": ["src/sat_core.cpp: new_conj, exprs"]}
{"id": "C16", "title": "new_disj reifies the disjunction", "statement": "Same as C15 for disjunction.", "quantifier": "as C15", "why_tests_cant": "as C15", "anchors": ["src/sat_core.cpp: new_disj"]}
{"id": "C17", "title": "new_eq reifies equality", "statement": "new_eq(a,b) returns a literal which is true iff a and b have the same value in every model.", "quantifier": "all pairs of literals and all reachable root-level states", "why_tests_cant": "sign combinations x assignments x models", "anchors": ["src/sat_core.cpp: new_eq"]}
{"id": "C18", "title": "new_at_most_one implies at most one", "statement": "If the literal returned by new_at_most_one(ls) is true in a model then at most one of ls is true there, and the operation is conservative (no previous model is lost), for any number of literals (standard and product encoding).", "quantifier": "all literal lists of any length, all reachable root-level states", "why_tests_cant": "the product encoding is recursive in the length", "anchors": ["src/sat_core.cpp: new_at_most_one"]}
{"id": "C19", "title": "new_exct_one implies exactly one", "statement": "If the literal returned by new_exct_one(ls) is true in a model then exactly one of ls is true there; creating it constrains nothing.", "quantifier": "all literal lists, all reachable root-level states", "why_tests_cant": "as C18, plus cached at-most-one literals", "anchors": ["src/sat_core.cpp: new_exct_one"]}
{"id": "C20", "title": "expression cache never confuses two expressions", "statement": "Two calls that reach the same cache key denote the same operator over the same literals: the textual keys are injective.", "quantifier": "all literal lists of all sizes", "why_tests_cant": "string-collision freedom is over all strings", "anchors": ["src/sat_core.cpp: s_expr keys", "include/lit.h: to_string"]}
{"id": "C21", "title": "simplify_db is safe and meaning-preserving", "statement": "simplify_db() preserves the models, keeps every remaining clause with at least two unassigned literals, both watched, and never erases a missing watch.", "quantifier": "all reachable root-level states", "why_tests_cant": "watch/literal order after arbitrary histories", "anchors": ["src/sat_core.cpp: simplify_db", "src/clause.cpp: simplify, ~clause"]}
{"id": "C22", "title": "sat_stack push/pop isolate contexts", "statement": "After sat_stack::push the top core is at root level, has the same values, and its models are the models of the previous core that agree with all its current values; pop returns the previous core unchanged.", "quantifier": "all reachable cores at a propagation fixpoint, any decision level", "why_tests_cant": "copying re-levels everything to root; depends on watch order", "anchors": ["src/sat_stack.cpp", "src/sat_core.cpp: sat_core(const sat_core&)"]}
{"id": "C23", "title": "listeners are told of every value change", "statement": "A listener registered on an unassigned variable is notified exactly once at each later change of that variable's value (assignment or retraction), until it is fixed at root level.", "quantifier": "all operation histories", "why_tests_cant": "history dependent; conflict analysis retracts values too", "anchors": ["src/sat_core.cpp: enqueue, pop_one", "include/sat_value_listener.h"]}
{"id": "C24", "title": "lin addition", "statement": "value of (l0 + l1) = value of l0 + value of l1 under every assignment, as for +=, and no zero coefficient is created.", "quantifier": "all linear expressions and assignments", "why_tests_cant": "infinite domain", "anchors": ["src/arith/lin.cpp: operator+"]}
{"id": "C25", "title": "lin subtraction, scaling, division", "statement": "value of l0 - l1, l * c, c * l, l / c, l += l1, l -= l1 and adding/subtracting a constant are the corresponding arithmetic on values; subtraction and in-place addition keep coefficients non-zero.", "quantifier": "all linear expressions, constants and assignments", "why_tests_cant": "infinite domain", "anchors": ["src/arith/lin.cpp"]}
{"id": "C26", "title": "lin in-place scaling and unary minus", "statement": "value of (l *= c) is c times the value of l; value of -l is minus the value of l; value of (c - l) is c minus the value of l.", "quantifier": "all linear expressions, constants and assignments", "why_tests_cant": "infinite domain", "anchors": ["src/arith/lin.cpp: operator*=, operator-()"]}
{"id": "C27", "title": "LRA bounds of an expression enclose its value", "statement": "If every variable is within its bounds then the value of a linear expression l lies between lb(l) and ub(l).", "quantifier": "all bounds, expressions, valuations", "why_tests_cant": "infinite domain, infinities", "anchors": ["include/arith/lra/lra_theory.h: lb, ub, bounds"]}
{"id": "C28", "title": "pivoting preserves the solutions of the tableau", "statement": "A pivot leaves exactly the same set of solutions of the tableau, keeps it in solved form (basic variables only on the left, no zero coefficients), and keeps the row-watch index exact.", "quantifier": "all tableaux, all admissible pivots", "why_tests_cant": "linear algebra over all valuations", "anchors": ["src/arith/lra/lra_theory.cpp: pivot, pivot_and_update, new_row"]}
{"id": "C29", "title": "LRA values satisfy the tableau", "statement": "After any sequence of updates, pivots and bound assertions the current values satisfy every tableau equation and non-basic variables are within their bounds.", "quantifier": "all histories", "why_tests_cant": "history dependent", "anchors": ["src/arith/lra/lra_theory.cpp: update, pivot_and_update, assert_lower, assert_upper"]}
{"id": "C30", "title": "LRA check: success gives a solution", "statement": "When check() returns true the current values satisfy every enforced bound and every equation, and a rational (non-infinitesimal) solution exists.", "quantifier": "all reachable tableaux and bounds", "why_tests_cant": "infinite domain", "anchors": ["src/arith/lra/lra_theory.cpp: check"]}
{"id": "C31", "title": "LRA check: failure gives a valid explanation", "statement": "When check() returns false the produced clause is valid in linear arithmetic and all its literals are currently false.", "quantifier": "all reachable tableaux and bounds", "why_tests_cant": "Farkas argument over all valuations", "anchors": ["src/arith/lra/lra_theory.cpp: check"]}
{"id": "C32", "title": "LRA bound propagation is sound", "statement": "Every clause recorded or reported by assert_lower/assert_upper (unate and row propagation) is valid in linear arithmetic: it holds under every rational valuation that satisfies the tableau.", "quantifier": "all reachable states", "why_tests_cant": "all valuations", "anchors": ["src/arith/lra/lra_constraint.cpp", "src/arith/lra/lra_theory.cpp: assert_lower, assert_upper"]}
{"id": "C33", "title": "LRA backtracking restores bounds", "statement": "pop() restores every lower/upper bound and its reason to what it was at the matching push().", "quantifier": "all sequences of bound assertions between push and pop", "why_tests_cant": "history dependent", "anchors": ["src/arith/lra/lra_theory.cpp: push, pop, assert_lower, assert_upper"]}
{"id": "C34", "title": "LRA constraint literals mean what they say", "statement": "The literal returned by new_lt/new_leq/new_geq/new_gt/new_eq is, in every arithmetic-consistent model, true iff the comparison holds.", "quantifier": "all pairs of expressions, all reachable root-level states", "why_tests_cant": "all expressions x states x valuations", "anchors": ["src/arith/lra/lra_theory.cpp: new_lt, new_leq, new_geq, new_gt", "include/arith/lra/lra_theory.h: new_eq"]}
{"id": "C35", "title": "LRA slack variables equal their expression", "statement": "For x = new_var(l), value(x) = value(l) always.", "quantifier": "all expressions and histories", "why_tests_cant": "history dependent", "anchors": ["src/arith/lra/lra_theory.cpp: new_var(const lin&)"]}
{"id": "C36", "title": "SAT + LRA end to end", "statement": "With an LRA theory attached: propagate true means the LRA values satisfy every asserted constraint; propagate false means no assignment of booleans and rationals satisfies the network; learned clauses are theory-valid.", "quantifier": "all operation histories", "why_tests_cant": "combination of all conflict and arithmetic histories", "anchors": ["src/sat_core.cpp: propagate", "src/arith/lra/*"]}
{"id": "C37", "title": "difference logic: distances are the exact closure", "statement": "After enforcing any consistent sequence of distance constraints, distance(x,y) is sound (every solution lies within), closed (triangle inequality) and tight (every finite bound is attained by a solution).", "quantifier": "all constraint sequences, all sizes", "why_tests_cant": "all-pairs shortest path over unbounded graphs", "anchors": ["src/arith/dl/idl_theory.cpp: propagate(from,to,dist), distance, bounds", "src/arith/dl/rdl_theory.cpp"]}
{"id": "C38", "title": "difference logic: a constraint literal is refused iff inconsistent", "statement": "new_distance returns FALSE_lit iff no solution of the enforced constraints satisfies it and TRUE_lit iff every solution satisfies it; propagating an asserted literal reports a conflict iff it contradicts the enforced constraints.", "quantifier": "all enforced constraint sets", "why_tests_cant": "all solutions", "anchors": ["src/arith/dl/idl_theory.cpp: new_distance, propagate(const lit&)"]}
{"id": "C39", "title": "difference logic: backtracking restores the distances", "statement": "pop() restores every distance to what it was at the matching push().", "quantifier": "all histories between push and pop", "why_tests_cant": "history dependent", "anchors": ["src/arith/dl/idl_theory.cpp: push, pop, set_dist"]}
{"id": "C40", "title": "difference logic: backtracking restores the explanations", "statement": "pop() restores the predecessor information and the enforced constraint of each pair, so later explanations are built from enforced constraints only.", "quantifier": "all histories between push and pop", "why_tests_cant": "only visible in later conflict clauses", "anchors": ["src/arith/dl/idl_theory.cpp: set_pred, pop"]}
{"id": "C41", "title": "difference logic: explanations are valid", "statement": "Every conflict or propagation clause produced by the difference-logic theories is valid in difference logic.", "quantifier": "all histories", "why_tests_cant": "only visible as lost solutions later", "anchors": ["src/arith/dl/idl_theory.cpp: propagate", "src/arith/dl/rdl_theory.cpp: propagate"]}
{"id": "C42", "title": "difference logic comparisons: new_lt/new_leq/new_eq/new_geq/new_gt", "statement": "The literal controls exactly the stated comparison between linear expressions of difference form.", "quantifier": "all pairs of expressions", "why_tests_cant": "all expressions", "anchors": ["src/arith/dl/idl_theory.cpp: new_lt, new_leq, new_eq, new_geq, new_gt", "src/arith/dl/rdl_theory.cpp"]}
{"id": "C43", "title": "difference logic queries on expressions", "statement": "bounds(lin), distance(lin,lin) and matches(lin,lin) enclose/describe the values of the expressions over all solutions.", "quantifier": "all expressions", "why_tests_cant": "all expressions x solutions", "anchors": ["src/arith/dl/idl_theory.cpp: bounds, distance, matches", "src/arith/dl/rdl_theory.cpp"]}
{"id": "C44", "title": "difference logic: growing the matrix is neutral", "statement": "new_var never changes any distance, and a new variable is unconstrained.", "quantifier": "all sizes and growth steps", "why_tests_cant": "reallocation happens at particular sizes", "anchors": ["src/arith/dl/idl_theory.cpp: new_var, resize"]}
{"id": "C45", "title": "object variables take exactly one value", "statement": "For x = ov.new_var(items), in every model exactly one allows(x,i) is true; other values are never allowed; value(x) lists exactly the values not yet excluded.", "quantifier": "all domains of any size, all histories", "why_tests_cant": "encoding is recursive in the domain size", "anchors": ["src/ov/ov_theory.cpp: new_var, allows, value"]}
{"id": "C46", "title": "object equality", "statement": "The literal of ov.new_eq(x,y) is true in a model iff x and y take the same value there (both single-valued), and creating it is conservative.", "quantifier": "all pairs of domains", "why_tests_cant": "all domains x models", "anchors": ["src/ov/ov_theory.cpp: new_eq"]}
{"id": "C47", "title": "LRA linear expression matching", "statement": "matches(l0,l1) returns false only if no solution makes l0 and l1 equal.", "quantifier": "all expressions, bounds", "why_tests_cant": "all solutions", "anchors": ["src/arith/lra/lra_theory.cpp: matches"]}
{"id": "C48", "title": "inconsistency is sticky", "statement": "Once propagate() has returned false at root level, it keeps returning false.", "quantifier": "all histories", "why_tests_cant": "history dependent", "anchors": ["src/sat_core.cpp: propagate"]}
{"id": "C49", "title": "DL check() never trips its assertion", "statement": "Whatever calls preceded it, the internal consistency assertion of the difference-logic check() does not fail.", "quantifier": "all histories of difference-logic calls", "why_tests_cant": "all states of an unbounded matrix", "anchors": ["src/arith/dl/idl_theory.cpp: propagate, check, set_dist", "src/arith/dl/rdl_theory.cpp: propagate, check, set_dist"]}
{"id": "C50", "title": "DL recorded clauses and conflicts have the required shape", "statement": "Difference-logic propagation terminates; every clause it records has an undefined head and all other literals false; a reported conflict has only false literals and contains the negation of the propagated literal; every literal of both controls a constraint of the theory.", "quantifier": "all histories, all assignments", "why_tests_cant": "all reachable states", "anchors": ["src/arith/dl/idl_theory.cpp: propagate, check, set_dist", "src/arith/dl/rdl_theory.cpp: propagate, check, set_dist"]}
{"id": "C51", "title": "DL propagation is complete", "statement": "After a successful propagation every undefined literal that controls a constraint which the told constraints entail or contradict has been decided, by a recorded clause headed by it.", "quantifier": "all histories, all assignments", "why_tests_cant": "all reachable states and all entailed constraints", "anchors": ["src/arith/dl/idl_theory.cpp: propagate, check, set_dist", "src/arith/dl/rdl_theory.cpp: propagate, check, set_dist"]}
{"id": "C52", "title": "DL listeners hear every bounds change", "statement": "During propagation every variable whose bounds change is notified to its listeners.", "quantifier": "all histories, all propagations", "why_tests_cant": "all changes of a shortest path update", "anchors": ["src/arith/dl/idl_theory.cpp: propagate, check, set_dist", "src/arith/dl/rdl_theory.cpp: propagate, check, set_dist"]}
{"id": "C53", "title": "DL: no conflict means satisfiable", "statement": "If no conflict was reported, the constraints told so far have a common solution, integral for the integer theory.", "quantifier": "all histories", "why_tests_cant": "requires a solution for every consistent state", "anchors": ["src/arith/dl/idl_theory.cpp: propagate, check, set_dist", "src/arith/dl/rdl_theory.cpp: propagate, check, set_dist"]}
{"id": "C54", "title": "DL comparisons throw exactly on non-difference input", "statement": "Comparisons throw exactly when the difference of the two sides is not of difference-logic form.", "quantifier": "all pairs of linear expressions", "why_tests_cant": "all inputs", "anchors": ["src/arith/dl/idl_theory.cpp: new_lt, new_leq, new_eq, new_geq, new_gt", "src/arith/dl/rdl_theory.cpp: new_lt, new_leq, new_eq, new_geq, new_gt"]}
{"id": "C55", "title": "object listeners hear of domain changes", "statement": "A listener registered for an object variable is told of the variable whenever the set value(x) differs between two later moments.", "quantifier": "all histories of calls, decisions and retractions between two moments", "why_tests_cant": "every interleaving of registrations, decisions and pops", "anchors": ["src/ov/ov_theory.cpp: listen", "include/ov/ov_value_listener.h: sat_value_change"]}
{"id": "C56", "title": "object networks are solved correctly end to end", "statement": "For any history of calls on a network with object variables: every model respects all the client was told (clauses, literal meanings, one value per variable), every assignment that respects it extends to a model, a false propagation or a rejected clause means there is none, and a total propagated state is a solution.", "quantifier": "all histories of public calls (for the directions 'extends to a model' and 'false means none': without core-level new_eq / new_at_most_one / new_exct_one, for which see C71), all domains, all map and set iteration orders", "why_tests_cant": "quantifies over all histories and all assignments", "anchors": ["src/ov/ov_theory.cpp", "src/sat_core.cpp"]}
{"id": "C57", "title": "the simplex check terminates", "statement": "check() of the linear arithmetic theory returns from every reachable state, after a number of pivots bounded by a function of the number of numeric variables only; so propagate() of a network with the theory returns from every reachable state.", "quantifier": "all reachable tableaux, bounds and histories", "why_tests_cant": "non-termination (cycling) cannot be observed by a finite test", "anchors": ["src/arith/lra/lra_theory.cpp: check, pivot_and_update", "src/sat_core.cpp: propagate"]}
{"id": "C58", "title": "sat_stack with a theory shared by its cores", "statement": "When the cores of a stack share their theories, push gives a core at root level with the same values, whose models are those of the parent that agree with its values; whatever is done in it, pop gives back the parent, its values, its models and the state of the theory.", "quantifier": "all numbers of theories meeting the interface contract, all reachable parents with nothing pending, all histories of the pushed core, nested pushes and pops included", "why_tests_cant": "the same theory object is used by all cores and is told only push and pop; histories of the child are unbounded", "anchors": ["src/sat_stack.cpp", "src/theory.cpp", "include/theory.h", "src/sat_core.cpp: sat_core(const sat_core&)"]}
{"id": "C59", "title": "listeners across push and pop of a sat_stack", "statement": "A listener registered on an unassigned variable in the top core, or in the core the top core was copied from, is told every assignment and every retraction of it, alternately, also when the retraction is due to dropping the top core: the last thing it was told is the value of the variable in the current top core. Nobody else is told anything (registrations made in a core that has been dropped excepted: those are lost with the core and the listener keeps a stale value).", "quantifier": "all histories of calls, registrations, pushes and pops, with or without theories", "why_tests_cant": "the notifications sent by a pop are computed from the trail of the dropped core, so they depend on everything done since the push", "anchors": ["src/sat_stack.cpp: push, pop", "include/sat_core.h: listen", "src/sat_core.cpp: sat_core(const sat_core&), enqueue, pop_one"]}
{"id": "C60", "title": "theories are told of the variables they are bound to", "statement": "A theory that has bound itself to a variable is told of every assignment of it, at the level at which it was made, also when several theories are bound to the same variable and whatever other theories do; it is told of every push and every pop, so that undoing what it was told since the matching push leaves it with exactly the bound variables that are assigned and not pending. It is never told of a variable it is not bound to.", "quantifier": "all histories of calls and bindings, all numbers of theories, any other theories meeting the interface contract", "why_tests_cant": "what a theory is told depends on propagation, conflicts, backjumping and learning", "anchors": ["include/theory.h", "src/theory.cpp: bind", "src/sat_core.cpp: propagate, assume, pop", "include/sat_core.h: bind"]}
{"id": "C61", "title": "Listeners of a numeric variable know its current value", "statement": "A listener that registers on a numeric variable of the linear real arithmetic theory while the two bounds of the variable differ is called every time the value changes: after any further calls (propagations, assumptions, pops, checks, conflicts, backjumps, new variables, slacks and constraints, other registrations), the last value it has been told - or, if it has not been called, the value at registration - is the one the theory now returns. Nobody is called about a variable it did not register on, and the calls do not change what propagation and checks compute. (A registration made while the bounds coincide is ignored: refuted.)", "quantifier": "all networks with any number of LRA theories, all sequences of calls, all registrations, all hash-set iteration orders", "why_tests_cant": "A value changes in two places (update, pivot_and_update), for the variable itself and for every row it appears in, at any point of a search with conflicts and backjumps; tests listen to one or two variables along a few runs.", "anchors": ["include/arith/lra/lra_value_listener.h", "include/arith/lra/lra_theory.h:listen", "src/arith/lra/lra_theory.cpp:update", "src/arith/lra/lra_theory.cpp:pivot_and_update"]}
{"id": "C62", "title": "A value is lost only together with its decision level", "statement": "As long as the decision level does not drop below d, every literal that is true at a level up to d stays true, at the same level, whatever calls are made (propagations, assumptions, pops, checks - failed or not -, next, conflicts and backjumps, new variables and constraints, simplify_db). In particular the values of root level are final.", "quantifier": "all reachable states, all sequences of legal calls, all theories that meet the contract", "why_tests_cant": "Backjumps are computed from learnt clauses and may skip several levels; tests see a few of them.", "anchors": ["src/sat_core.cpp:pop", "src/sat_core.cpp:backjump", "src/sat_core.cpp:analyze", "src/sat_core.cpp:record", "src/sat_core.cpp:check", "src/sat_core.cpp:next", "src/sat_core.cpp:simplify_db"]}
{"id": "C63", "title": "A core with a difference logic theory, at root level", "statement": "In a network made of a core and a difference logic theory (idl over the integers, rdl over rationals with infinitesimals), used through new_var, new_distance, the comparisons and the functions of the core: every legal call returns; when propagate or new_clause returns false no assignment satisfies everything stated so far together with the meanings of the constraint literals; every value the core reports holds in all such assignments; distance(i, j) encloses the difference of the two variables in all of them, and is exact for the constraints whose literals are assigned; when propagate returns true there is a numeric assignment that agrees with all the assigned constraint literals, and if all variables are assigned it is a solution of everything stated. (Proved as long as nothing is assumed; after decisions have been made and undone the literals of constraints may be propagated wrongly: refuted.)", "quantifier": "all histories of legal calls of any length, all initial sizes, all constraints", "why_tests_cant": "Propagation goes back and forth between clauses and distances, with explanations, conflicts and lemmas, in an order that depends on the whole history; tests see a few runs.", "anchors": ["src/arith/dl/idl_theory.cpp", "src/arith/dl/rdl_theory.cpp", "src/sat_core.cpp:propagate", "src/sat_core.cpp:new_clause", "src/theory.cpp"]}
{"id": "C64", "title": "The textual caches of the theories never confuse two expressions", "statement": "The text under which new_var(lin) caches a linear expression determines the expression (variables, coefficients, known term) and conversely; the text of a cached assertion determines the variable, the side and the bound; the text of a cached object equality determines the two variables, whatever their order. So looking a text up finds the entry of that expression and no other.", "quantifier": "all linear expressions, all bounds with infinitesimals, all variables, all cache contents, all texts of rationals that are injective and made of digits, minus and slash", "why_tests_cant": "Injectivity of a concatenation of numbers and separators ranges over all expressions; a collision would only show for special pairs.", "anchors": ["src/arith/lin.cpp:to_string", "src/arith/lra/lra_theory.cpp:new_var", "src/arith/lra/lra_theory.cpp:new_lt", "src/arith/lra/lra_theory.cpp:new_leq", "src/arith/lra/lra_theory.cpp:new_geq", "src/arith/lra/lra_theory.cpp:new_gt", "src/ov/ov_theory.cpp:new_eq"]}
{"id": "C65", "title": "A copied theory behaves like its original", "statement": "A theory created by copying another one onto a core (the constructors taking a core and an original) answers every query like the original at the time of copying and from then on enforces its own constraints, old and new, exactly as the original would.", "quantifier": "every history of the copied theory (LRA, IDL, RDL) before the copy, and every history after it", "why_tests_cant": "The copy is made at an arbitrary point of an arbitrary history, with pivots done, levels open and bounds asserted; tests copy at most one fresh network.", "anchors": ["src/arith/lra/lra_theory.cpp: lra_theory(sat_ptr, const lra_theory &)", "src/arith/dl/idl_theory.cpp: idl_theory(sat_ptr, const idl_theory &)", "src/arith/dl/rdl_theory.cpp: rdl_theory(sat_ptr, const rdl_theory &)", "src/theory.cpp: theory::theory"]}
{"id": "C66", "title": "Bounds set directly take effect exactly", "statement": "set_lb, set_ub and set of a real variable change that bound only: a weaker bound changes nothing, one that crosses the opposite bound is refused with the two reasons, any other becomes the bound with the given reason; the values keep solving the equations; pop takes back every bound set since the push; set of a value within the bounds that succeeds leaves exactly that value.", "quantifier": "every history of the theory including bounds set earlier by clients, every variable, value, reason and assignment of the core", "why_tests_cant": "The effect depends on all earlier bounds, the layers, the tableau after any number of pivots and the values of all literals.", "anchors": ["include/arith/lra/lra_theory.h: set_lb, set_ub, set", "src/arith/lra/lra_theory.cpp: assert_lower, assert_upper, update, push, pop"]}
{"id": "C67", "title": "Theories sharing a core do not interfere", "statement": "When an object-variable theory and a linear-arithmetic theory share one core, everything each of them promises alone still holds: models of the network respect every clause, object equality and arithmetic comparison the client stated, and nothing more; propagate returning true with all variables assigned yields a joint solution (the arithmetic values included), propagate returning false means there is no joint solution, a true literal or a value missing from a domain follows from what was told, through both theories if need be; a call of one theory leaves the other as it was.", "quantifier": "every history of calls of both theories and of the core (for the directions 'nothing more' and 'false means none': without core-level new_eq / new_at_most_one / new_exct_one, for which see C71), every iteration order of maps and sets, every assignment and every real valuation", "why_tests_cant": "Interleavings of the two theories' calls with decisions, pops and learning are unbounded; each theory's own tests never put a second one on the core.", "anchors": ["theory.cpp", "theory.h", "sat_core.cpp", "ov_theory.cpp", "lra_theory.cpp"]}
{"id": "C68", "title": "The exported documents are faithful", "statement": "The JSON document of a core determines its variables, their values and its clauses, and conversely; an assignment satisfies the document (the values it shows and its clauses) only if it respects everything the client stated, and every assignment that respects it and the decisions satisfies the document; after a successful propagate() no clause shown is falsified or unit. The same for the document of an arithmetic theory (values, bounds, rows, assertions), whose values solve the documents when everything is assigned.", "quantifier": "every history, every pair of states, every assignment and valuation, every iteration order of the assertions, every injective way of writing numbers", "why_tests_cant": "Two different networks must never export the same document and no constraint may be lost: a claim about all pairs of states and all histories.", "anchors": ["sat_core.cpp", "clause.cpp", "lra_theory.cpp", "lra_constraint.cpp"]}
{"id": "C69", "title": "A theory may report a conflict, or record a clause, at any time", "statement": "Outside of the search a theory calls backtrack_analyze_and_backjump() with a conflict: a clause all of whose literals are false and that no solution violates (at least two literals unless all are false at root level). The call ends without undefined behaviour and does not change the set of solutions; it answers false only if there is none; otherwise the core is left above the point at which the conflict was complete (its decision level is below the highest level of the conflict), with the oldest decisions and everything known at their levels in place, nothing pending and the conflict cleared. A clause that the theory records (first literal unassigned, the others false, one of them at the current level) restricts the solutions to exactly those satisfying it. Over whole histories of calls by clients and theories the solutions are those of everything that was stated.", "quantifier": "every theory meeting the contract, every history of client calls, reported conflicts and recorded clauses, every conflict", "why_tests_cant": "the outcome depends on the levels of all literals of the conflict, on the implication graph and on what propagation learns next; tests see a few conflicts at a few levels", "anchors": ["src/theory.cpp: theory::backtrack_analyze_and_backjump, analyze_and_backjump, record", "include/theory.h", "src/sat_core.cpp: analyze, record, pop, propagate"]}
{"id": "C70", "title": "Destroying a theory or a listener while the core lives on is safe", "statement": "A client may destroy a theory or a listener before the core. Full statement: after that no call to the core reaches the destroyed object, and the set of solutions is what the remaining statements and the facts entail. This holds for a theory of a consistent network all of whose literals are facts already propagated, so that the core holds no reference to it any more: the solutions are unchanged, and every later history, including the destruction of further theories in the same condition, runs without undefined behaviour and answers as ever. It fails for a theory still bound to a variable and for a listener still registered on one.", "quantifier": "every theory meeting the contract, every history of calls and destructions, every state in which the theory is destroyed", "why_tests_cant": "a dangling reference is used only when the variable it is attached to is next assigned, at any later point of any history; tests destroy everything at the end", "anchors": ["src/theory.cpp: theory::~theory", "include/sat_value_listener.h: ~sat_value_listener", "src/sat_core.cpp: propagate", "include/sat_core.h: bind, listen, bounds, listening"]}
{"id": "C71", "title": "Histories with equalities, at-most-one and exactly-one constraints, end to end", "statement": "For any history of core calls, reified equalities, at-most-one and exactly-one constraints of any length included: every model of the network agrees with every answer the client was given (a returned literal of an at-most-one implies it, of an exactly-one implies it, of an equality implies it and follows from both sides being true, of a conjunction or disjunction is equivalent to it); every assignment of the variables the client knows that agrees with all the answers extends to a model (on the hidden variables of the encodings); hence a false propagate, new_clause or check means that no assignment agrees with the answers (and the decisions, the literals asked for), a literal found true follows from them, and a total propagated assignment agrees with all of them.", "quantifier": "every theory meeting the contract, every consistent initial network, every history of calls that mentions known variables only (initial ones and those of returned literals), with at-most-one and exactly-one lists free of repeated and of already true literals and equalities of literals of the same sign (elsewhere C17-C19 refute the statement)", "why_tests_cant": "hidden variables of nested and cached encodings must be given values consistently for every assignment and every history; tests look at one small encoding", "anchors": ["src/sat_core.cpp: new_eq, new_conj, new_disj, new_at_most_one, new_exct_one, new_clause, propagate, check, next", "include/sat_core.h: exprs"]}
{"id": "C72", "title": "SAT + LRA histories with equalities, at-most-one and exactly-one constraints, end to end", "statement": "As C36, without its restriction on the reified core constraints: for any history of core calls (equalities, at-most-one and exactly-one constraints included, over comparison literals too) and of calls of one LRA theory, every solution of the network (Booleans and reals) agrees with every answer; every assignment of the known Boolean variables and values of the known numeric variables that agree with all the answers extend to a solution; so a false propagate, new_clause or check means that there is none (under the decisions and literals asked for), a literal found true follows, and a total propagated state, its infinitesimals replaced by any small enough number, agrees with everything.", "quantifier": "every iteration order of the hash containers, every history of calls that mentions known variables only, with the conditions of C71 on equalities, at-most-one and exactly-one and those of C35 on slack definitions", "why_tests_cant": "quantifies over all histories, Boolean assignments and real valuations at once; hidden variables come from two sources (encodings, slack variables)", "anchors": ["src/sat_core.cpp: new_eq, new_at_most_one, new_exct_one, propagate, check", "src/arith/lra/lra_theory.cpp: new_var, new_lt, new_leq, new_geq, new_gt, propagate, check"]}
{"id": "C73", "title": "Core and difference logic together, decisions one at a time: every answer is right", "statement": "In a network made of a core and an integer (or rational) difference logic theory in which no two constraints are about the same pair of numeric variables and decisions are taken at root level, one at a time (assume, check with one literal, next, pop in any order, with clauses, constraints, variables and propagation in between): every call returns; a false propagate or new_clause means that no Boolean assignment and no integers (rationals) satisfy everything stated; a refused decision, one the core takes back by itself, or a false check means that the literal is false in all of them; a false next means that none is left outside the decision; a literal that has a value has it in all of them that satisfy the decision; distance(i, j) encloses x_j - x_i in all of them, and once everything is propagated it is the exact hull of the constraints whose literals have a value, which have a common solution; if every variable has a value everything stated holds. Nothing of this survives when two constraints share a pair, or when two decisions are open (C63 refutations).", "quantifier": "every history of legal calls from the creation of the network, every assignment of the Boolean and numeric variables", "why_tests_cant": "quantifies over all histories with backtracking and over infinitely many valuations; the two configurations in which the code answers wrongly differ from the right ones by one constraint or one decision", "anchors": ["src/sat_core.cpp: assume, check, next, pop, propagate, new_clause", "src/arith/dl/idl_theory.cpp: new_distance, propagate, propagate(from,to,dist), push, pop", "src/arith/dl/rdl_theory.cpp: new_distance, propagate, push, pop"]}
{"id": "C74", "title": "Deciding unassigned literals until none is left is a decision procedure", "statement": "In any network (clauses only, with linear real arithmetic, or with object variables and linear real arithmetic together), a client that calls propagate() and then assume() on an unassigned literal of its choice, again and again until every variable has a value or a call answers false, gets an answer after finitely many calls, whatever it chooses: if it gets to a total assignment, the values of the core (and of the theory, the infinitesimal replaced by any small enough number) satisfy everything that was stated and every answer it was given; if a call answers false, nothing satisfies them.", "quantifier": "every network reachable by legal calls (decisions may be open, each on a literal that was unassigned), every way to choose the next literal", "why_tests_cant": "termination and correctness of a loop over all networks and all choice functions: learning, backjumping and the theories' conflicts are interleaved in it", "anchors": ["src/sat_core.cpp: assume, propagate", "src/arith/lra/lra_theory.cpp: propagate, check", "src/ov/ov_theory.cpp"]}
{"id": "C75", "title": "Going on with next() lists every solution exactly once", "statement": "A client that looks for a total assignment as in C74, records it, calls next() and goes on, until a call answers false, stops after finitely many calls and has recorded exactly the assignments of the Boolean variables that satisfy what was stated (with linear real arithmetic: those for which some real values exist), each of them once.", "quantifier": "every network reachable by legal calls, every way to choose the next literal, every assignment of the variables", "why_tests_cant": "completeness and freedom from repetition of an enumeration over all networks, all choice functions and exponentially many solutions", "anchors": ["src/sat_core.cpp: next, assume, propagate", "src/arith/lra/lra_theory.cpp: propagate, check"]}
{"id": "C76", "title": "The verdict depends only on what was stated", "statement": "If two clients have made the same statements to two networks and were given the same literals (clauses, constraints, comparisons, in any order and any number of times, with any decisions, propagations, probes, backtrackings, simplifications and new variables in between), then searching (C74) gives the same verdict on both, whatever each of them chooses and whatever the order in which the hash containers are visited; and without theories the solutions listed (C75) are the same on the variables they know.", "quantifier": "every two histories of legal calls with the same statements, every two ways to choose, every iteration order of the unordered containers", "why_tests_cant": "compares all pairs of histories: learnt clauses, watches, tableau and bounds differ between them", "anchors": ["src/sat_core.cpp: propagate, assume, new_clause, simplify_db, next", "src/arith/lra/lra_theory.cpp: propagate, check"]}
{"id": "C77", "title": "In-place operators applied to the object itself", "statement": "For a linear expression l, l += l doubles its value and l -= l makes it zero.", "quantifier": "every linear expression without zero coefficients, every assignment of the variables", "why_tests_cant": "all expressions of any size; the failure depends on iterator validity, not on values", "anchors": ["src/arith/lin.cpp: operator+=, operator-="]}
{"id": "C78", "title": "Order and repetition of arguments do not matter", "statement": "The calls that state a clause or create a conjunction or a disjunction take a set of literals: their answer and the state of the network afterwards do not depend on the order of the literals, on repetitions, nor on how the library's sort arranges literals of the same variable. At-most-one and exactly-one do not depend on the order either.", "quantifier": "every state of the core, every two lists with the same literals, every sorting function that orders by variable", "why_tests_cant": "std::sort leaves the order of a literal and its negation open; tests run one library on a few lists", "anchors": ["src/sat_core.cpp: new_clause, new_conj, new_disj, new_at_most_one, new_exct_one (std::sort and filtering loops)"]}
{"id": "C79", "title": "Difference logic and linear arithmetic on one core", "statement": "A network may hold a difference logic theory and a linear real arithmetic theory on one core. Whatever clauses, distances, comparisons and expressions have been stated through either, the network entails exactly what was stated: a failed propagation or a rejected clause means that no assignment to the propositional variables, the difference variables and the arithmetic variables satisfies it all; a value, a distance or a bound that is reported is implied; after a successful propagation the reported values, with some values for the difference variables, respect every constraint that has a value, and are a solution if every variable has one; every call returns, and the calls of one theory leave the other alone.", "quantifier": "every history of calls of the core and of both theories (integer or rational difference logic), every order of iteration over sets, every stable or unstable sort", "why_tests_cant": "each theory is tested alone; the interleaving of their propagations, conflicts and explanations through one core is unbounded", "anchors": ["src/sat_core.cpp: propagate, analyze, record", "src/theory.cpp: backtrack_analyze_and_backjump", "src/arith/dl/idl_theory.cpp, rdl_theory.cpp: propagate, new_distance, new_lt ... new_gt", "src/arith/lra/lra_theory.cpp: propagate, check, new_var, new_lt ... new_gt"]}
{"id": "C80", "title": "Observing changes nothing", "statement": "Registering listeners - of propositional variables on the core, of numeric variables on a linear arithmetic theory - never changes what a network does: whatever listeners are registered, when, and on which variables, every call returns the same answer and leads to the same values, levels, reasons, clauses, watches, decisions and theory states as in the same program without any listener.", "quantifier": "every history of calls (with any theories for propositional listeners, any number of linear arithmetic theories for numeric ones), every listener, every order of iteration over sets, every stable or unstable sort", "why_tests_cant": "a test can compare one program with and one without listeners; that no listener in no history can change an answer needs an argument about every call", "anchors": ["src/sat_core.cpp: enqueue, pop_one, listen", "src/sat_core.h: add_listener", "src/sat_value_listener.h", "src/arith/lra/lra_theory.cpp: update, pivot_and_update, listen", "src/arith/lra/lra_value_listener.h"]}
{"id": "C81", "title": "Machine integers suffice for integer difference logic with small weights", "statement": "An idl_theory with at most N variables (the origin included), weights of at most M and comparisons whose constant is less than M times any coefficient never overflows and never mistakes a distance for infinity, provided that (2N+1)(M+1) is less than inf(), the number that stands for infinity: every call answers as if integers were unbounded and infinity were no number, propositional variables have the same values, distance(from, to), lb and ub give the same numbers (infinity being inf()), and no finite distance exceeds N(M+1); with decisions taken one at a time the answers are therefore right for the integers (C73), and the constraints in force have a solution of integers of at most N(M+1). With larger weights it does not hold: the literal of false may be returned for a constraint that follows from what has been stated, sums overflow, and the bounds of an expression over an unbounded variable are finite numbers.", "quantifier": "every history of calls to the core (decisions, backjumping, check, simplification included) and the theory, every N, M and greatest machine integer with that much room, every bound on iterations, every sort", "why_tests_cant": "overflow depends on the sums of weights along paths, of which a program has exponentially many, in every order of assertion and retraction; tests use small numbers", "anchors": ["src/arith/dl/idl_theory.cpp: new_distance, propagate, set_dist, check, push, pop, bounds, distance, matches, new_lt, new_leq, new_eq, new_geq, new_gt", "include/arith/dl/idl_theory.h: inf, lb, ub, distance"]}
