# DESIGN — a Rocq model of ratioSolver/SeMiTONE

The code in /repo is read as text; nothing is executed. Every definition of the model carries the
file and lines it models, and says what it simplifies. (First version written before the proofs;
kept current.)

## Outcomes

Model functions return `res A := Ok a | UB | OOF`.
* `UB`: a failed `assert`, an out-of-bounds / empty-container access, `erase(end())`, `at()` on a
  missing key, an exception escaping a `noexcept` function. Theorems state that `UB` does not occur,
  under explicit API preconditions (root level, empty propagation queue, literals in range).
* `OOF`: fuel exhausted in a loop without a structural measure (`propagate`, `next`, the simplex
  loop). Theorems on results hold for every fuel; termination theorems (C06, C57) give an explicit
  fuel that is always enough.

## Layout (rocq/theories, in build order)

| files | content |
|---|---|
| Base, Lit, Keys | results, three-valued booleans, literals as machine words, textual cache keys |
| Sat | the **model** of `sat_core`, `clause`, `theory`: state machine over total maps; theories behind the record `theory_ops` |
| SatSpec | the **specification side**: models of a state (`smodels`), the `contract` a theory has to meet |
| SatInv … SatSimp, Stack, Reify, Amo, Run, Listen, StackRun, Learn, SatFacts, SatProps, ReifyProps | invariants and their preservation; `Run.v` has the client view: `legal` calls, `Reach`, `Trace`, `good` |
| Exec, Refute | executable histories, used for concrete cases and refutations |
| PropSat, PropReify | **theorems** C01–C23, C48, C62 (SatKept: values are kept) |
| Lin, LinProps, PropLin | model of `lin`, **theorems** C24–C26 |
| Qe, Lra | rationals with infinitesimals; the **model** of `lra_theory`, `row`, `assertion` |
| LraTab … LraFacts | tableau, values, bounds, check, termination (LraTerm), contract (LraCon), client histories (LraRun), end to end (LraEnd) |
| PropLra | **theorems** C27–C36, C47, C57 |
| ThPres, LraLis, PropLraLis | `lra_theory` with its value listeners, **theorem** C61 |
| StackTh, StackN, StackEx, StackLis, PropStack, PropStackN, RecTh, PropTh | `sat_stack` with any number of shared theories, nested pushes and pops, listeners; a recording theory; **theorems** C58–C60 |
| Dw, Dl | distances; the **model** of `idl_theory`/`rdl_theory` over an abstract ordered group of weights, with the two instances |
| DlClo … DlQ | closure, tightness, explanations, API |
| Report, PropReport | conflicts reported and clauses recorded by theories outside the search; **theorems** C69 |
| Full, FullEnd, PropFull | histories with all the reified core constraints, hidden variables of the encodings included; **theorems** C71 |
| LraFull, PropLraFull | the same with an LRA theory; **theorems** C72 |
| Destroy, PropDestroy | theories destroyed before the core, destroyed listeners; **theorems** C70 |
| Copy, LraSet, PropCopy | copying constructors of the theories, bounds set by clients; **theorems** C65, C66 |
| OvStep, Mix, MixApi, MixRun, MixEnd, MixExec, MixSame, PropMix | object variables and LRA on one core; **theorems** C67 |
| Json, JsonSpec, JsonProps, PropJson | exported documents; **theorems** C68 |
| LraKeys, PropKeys | texts of linear expressions, assertions, object equalities; **theorems** C64 |
| MapTh, DlRoot, DlNet, DlTrace, DlRSpec, PropDlRoot | core and difference logic theory together at root level (translation of theory states, calls, histories, vocabulary), **theorems** C63 |
| Two, TwoApi, TwoSame, TwoNet, TwoTrace, TwoSpec, PropTwo | difference logic and LRA on one core at root level; **theorems** C79 |
| Para, Hush, PropHush | relational parametricity of the core; listeners do not act back; **theorems** C80 |
| NvMono, Idl, IdlBd, IdlSim, IdlRun, IdlNet, IdlHist, IdlEx, PropIdl, IdlFlat, PropIdlFlat | variables are never lost; integer difference logic with machine integers, bound on distances, simulation, calls, histories, executable histories; **theorems** C81 |
| DlFlat, FlatNet, FlatTrace, FlatSpec, FlatHist, PropFlat | the same with decisions, one at a time, and one constraint for each pair of variables; **theorems** C73 |
| LinSelf, PropLinSelf | `l += l`, `l -= l`; **theorems** C77 |
| Sort, SortEx, PropSort | the calls that sort, with an open sort; **theorems** C78 |
| Search, SearchLra, SearchMix, SearchAll, PropSearch | the client's loops: assume until everything has a value, next until nothing is left, for any contract, for LRA and for OV + LRA; **theorems** C74, C75, C76 |
| PropDl | **theorems** C37–C44, C49–C54 |
| ThSum, Ov, OvInv … OvProps, PropOv | sum of theories, **model** of `ov_theory`, **theorems** C45, C46, C55, C56 |

The files `Prop*.v` hold statements closed by lemmas proved elsewhere, a `Print Assumptions` after each
and, beside each, an `Example Cxx_case` with a concrete non-trivial case that meets its hypotheses
(a state computed by the executable model from a list of API calls).

## How the statements are made independent of the model

* A *model* of a network (`smodels C s M`): a total assignment of Booleans that makes every clause
  true, agrees with root-level facts, and is accepted by the theory (for LRA: some rational
  values solve the tableau and make each atom true iff its literal is true).
* *Client terms*: for the core without theories, `Trace`/`stated` describe what the client said and
  was told (clauses, returned literals with their intended meaning) without looking at the state;
  the same for LRA (`LTrace`, `told`), for difference logic (`DReach`/`DInv`: the stack of the told literals and their
  constraints) and for object variables (`OTrace`, `ov_told`). The end-to-end theorems
  (C05, C08, C36, C37–C54, C56) are stated in these terms.
* *Histories*: `Reach`/`Trace` quantify over all finite sequences of legal public calls; scheduling
  freedom (iteration order of `unordered_map`/`unordered_set`) is an arbitrary function that returns
  some permutation, universally quantified.

## Plan per property

| property | model | proof |
|---|---|---|
| C01 literal encoding | 64-bit words as `N` mod 2^64 (Lit.v) | arithmetic |
| C02 negation of values | `value` | case analysis |
| C03 new_clause, C04 search calls preserve models, C05 false is final | all of `sat_core` | invariant `Inv` preserved by each function; resolution soundness of the learnt clause; model-set equalities |
| C06 termination | `propagate` with fuel | lexicographic measure on the trail (levels × assigned variables), explicit bound |
| C07 no missed unit/conflict | watch lists | watch invariant |
| C08 values are consequences, C09 asserting no-goods | reasons, `analyze` | invariant on reasons; first-UIP loop invariant |
| C10 pop undoes assume | trail | history invariant |
| C11 no UB | every assert/access in the model is a `guard` | invariant; `next` with a redundant decision is refuted |
| C12, C13 check | `check` | from C04/C10; C13 is refuted by a computed witness |
| C14 next | `next` | clause semantics |
| C15–C19 reification | `new_conj` … `new_exct_one` incl. the cache | conservative-extension lemmas; `_refuted` witnesses where the code is wrong |
| C20 keys | textual keys as strings | injectivity by induction on the list |
| C21 simplify_db | `clause::simplify`, `simplify_db` | as C03 |
| C22 stack | `sat_stack`, copy constructor of the core | bisimulation of copy and original |
| C58 stack with a shared theory | `sat_stack`, `theory::push/pop` | contract transformers `deepC`, `famC` (theories whose lower levels are covered), one per level of the stack; tagged theories show that each call keeps the meaning of each theory; `_refuted` where the code leaks |
| C23 listeners | notification log | log invariant |
| C24–C26 | `lin` over Q | algebra; `_refuted` witnesses |
| C27, C47 bounds, matches | `lb/ub/value(lin)`, `matches` | interval arithmetic |
| C28 pivot | `pivot` on sparse rows and `t_watches` | equivalence of linear systems |
| C29–C31 values, check | `update`, `pivot_and_update`, `check` | tableau invariant; Farkas explanation |
| C32 propagation | `assert_lower/upper`, `row::propagate_*`, `assertion::propagate_*` | validity of each recorded clause |
| C33 pop | layers | stack of undo maps |
| C34, C35 comparisons, slack | `new_lt` … `new_eq`, `new_var(lin)` | correspondence of atoms with expressions |
| C36 end to end | core + LRA | LRA meets the core's `contract`; client histories |
| C57 termination of check | simplex loop | Bland's rule: a repeated (basis, side) configuration contradicts the choice of the smallest variable; pigeonhole on 6^n configurations |
| C37–C39, C44, C49–C53 | `propagate(from,to,dist)`, `set_dist`, pop, `resize`, `check` | closure invariant of incremental all-pairs shortest path, potentials for tightness |
| C40, C41 explanations | `preds`, `dist_constr` | valid without pop and with one constraint per pair; refuted otherwise |
| C42, C43, C54 | comparisons and queries on `lin` | case analysis of the code's shapes; refutations |
| C45, C46, C55, C56 | `ov_theory` on top of the core (theory sum) | contract of the (trivial) theory, C15–C19, client histories |
| C48 sticky inconsistency | core | refuted by a computed witness |
| C59 listeners of a stack | `sat_stack::push/pop`, `listen` | StackLis.v: chain of the invariants of Listen.v, one per core, through copy and pop |
| C60 theories are told | `theory::bind`, `propagate`, `push`, `pop` as called by the core | RecTh.v: a recording theory meets the contract, next to any other theories (sum contract); binding preserves the invariant (ThGrow.v) |
| C61 LRA listeners | `listen`, `update`, `pivot_and_update` with their notifications | LraLis.v: instrumented theory, its erasure is Lra.v, invariant `UPn` through every call (ThPres.v) |
| C62 values are kept | all of `sat_core` | SatKept.v: every call keeps the values of the levels that remain, induction over histories |
| C63 core + difference logic | core and `idl_theory`/`rdl_theory` together, all API calls but assume/pop | DlNet/DlTrace: the theory meets the SAT contract at root level with the explanations valid modulo root facts; histories by induction; full statement refuted by runs with decisions: one decision with two constraints on a pair, two decisions with one constraint for each pair (the other cases are C73) |
| C64 textual caches | `to_string(lin)`, keys of assertions and of object equalities | LraKeys.v: splitting at the first character outside a class; lookups by text equal those of the model |
| C65 copied theories | the copying constructors, `theory::theory` | Copy.v; queries and watched assertions proved equal from the invariants of LRA and DL; that the copy enforces its constraints is refuted by concrete runs |
| C66 bounds set by clients | `set_lb`, `set_ub`, `set` | LraSet.v: histories that mix ordinary calls and bounds set by clients (SReach); effect of one call, values, undoing by pop |
| C67 theories on one core | object variables and LRA on one core: all calls of both (Mix.v) | sum of contracts (ThSum.v), an invariant over histories (MixRun.v), both directions against what the client was told (MixEnd.v) |
| C68 exported documents | `to_json` of core, clauses, LRA theory, assertions, rows | Json.v; reader in JsonSpec.v; injectivity and faithfulness in JsonProps.v |
| C69 theories outside the search | `backtrack_analyze_and_backjump`, `record` of theory.cpp as calls of their own (Report.v) | invariant of the core through backtracking to the conflict's level, then as C05/C06/C09; histories by induction |
| C70 destruction | `~theory` (Destroy.v): the slot of a destroyed theory answers UB to propagate, is skipped by check/push/pop | the theory's constraint is a function of root facts (c_model_ext), so the invariant carries over; histories by induction; refuted by two runs |
| C71 full histories | all core calls, with the hidden variables of the encodings | invariant by induction on the history: every assignment that agrees with the answers extends to a model and gives every cached key its meaning |
| C72 SAT + LRA full histories | LTrace of C36 with all core calls | C71's step lemma at the contract of fixed numeric values; every atom of the theory is a literal the client was given |
| C73 core + difference logic, one decision at a time | core and `idl_theory`/`rdl_theory` together, decisions at root level, one constraint for each pair | DlFlat.v: above root level predecessor paths are made of root distances and enforced constraints, so an explanation names every constraint told since the decision and its lemma is valid modulo root facts; FlatNet/FlatTrace: contract with two levels, histories by induction |
| C74 searching by assume | the client's loop `assume` an unassigned literal until none is left or false, over any contract; instances core, LRA, OV + LRA | Search.v: the measure of `propagate` decreases with each assumption, so the loop ends in `search_len` steps; a total quiet state is a model (`th_decides`); SearchLra/SearchMix: theories decide their atoms, histories |
| C75 enumerating with next | the loop search, record, `next` | Search.v `enumerate_ok`: next excludes exactly the assignments that agree with the decisions, which at a total assignment is that assignment only; at most 2^(n-1) rounds |
| C76 verdict independent of the history | two histories with the same statements | corollary of C74, C75: what a history requires of an assignment only depends on its statements |
| C77 self-assignment of `lin` | LinSelf.v: the two loops over the map they change | induction on the map; the erasing iteration is UB |
| C78 order of arguments | Sort.v: the five calls with an open sort | the filters keep the strictly sorted list of unassigned literals (induction over a list sorted by variable), which is determined by the set |
| C79 difference logic and LRA on one core | Two.v: the calls of Dl.v with the theory taken out of a sum; Mix.v's for LRA | sum of the root-level contract of the muted difference logic theory (DlRoot.v) and of LRA's, invariant and meaning of every call (TwoApi.v, TwoNet.v), both directions against what was stated (TwoTrace.v) |
| C80 observing changes nothing | Sat.v's and LraLis.v's listeners | relational parametricity of the core in its theories, its listeners and its log (Para.v), lifted to histories; for linear arithmetic composed with the projection of LraLis.v's theory to Lra.v's (Hush.v) |
| C81 machine integers suffice | Idl.v: the theory with a sentinel and overflow as undefined behaviour, function by function | finite distances are attained by solutions (DlQ.v) and a solution can be compressed until gaps are at most M + 1, so they are at most N(M+1) (IdlBd.v); simulation of every operation (IdlSim.v, IdlRun.v, IdlNet.v), lifted to the core by the parametricity of Para.v and to histories (IdlHist.v); with decisions one at a time, the answers of C73 (IdlFlat.v), with solutions compressed to N(M+1) |

No property of the list is left out as inexpressible.

## Findings (each is a theorem named `_refuted`)

* `lin::operator+(const lin&)` drops the right known term and adds the left one twice; `operator*=`
  does not scale the known term; unary minus ends in undefined behaviour on any non-constant.
* `idl_theory` with weights near `inf()`: `new_distance` returns the literal of false for a constraint that has been implied by what is stated;
  propagating a chain of such weights overflows; the bounds of an expression over an unbounded variable are finite numbers (C81).
* `l -= l` of a linear expression with a variable erases the map element under its own loop: undefined behaviour (C77).
* `sat_core::new_eq`: wrong polarity when one side is assigned; only half reified.
* `new_at_most_one`/`new_exct_one` with an already true literal; `new_exct_one` on a negative
  singleton; `new_exct_one` re-uses the at-most-one control literal.
* `new_at_most_one`/`new_exct_one` on x, !x, x: the result depends on the order of the arguments and on how `std::sort` orders
  literals of the same variable (C78).
* `check` may retract decisions; inconsistency is not sticky; `next` with redundant decisions is UB.
* `idl_theory::new_gt` passes `(k, -1)` as `(min, max)`: the literal can never be true.
* difference logic: `pop` restores wrong predecessors and `dist_constr.emplace` never replaces, so
  explanations may be invalid, and a core with such a theory answers wrongly: sharp examples with one decision and two
  constraints on a pair, and with two decisions and one constraint for each pair (C63), between which C73 holds; bounds/distance/matches of expressions wrong for negative or non-unit
  coefficients and known terms.
* `lra_theory::new_var(lin)` with a basic variable in the expression; comparisons off root level
  record facts that are retracted.
* `sat_stack` with a shared theory: comparisons created in a pushed core stay in the theory's cache after
  pop; popping above root level leaves facts of the popped core in the theory.
* A numeric value listener that registers while the two bounds of the variable coincide is never called, even
  after backtracking has separated them (`C61_late_registration_refuted`).
* `theory::backtrack_analyze_and_backjump`: a one-literal conflict above root level fails an assertion (C69).
* `~theory` and `~sat_value_listener` leave the address of the destroyed object in `bounds` / `listening` (C70).
* `ov_theory::new_eq` for multi-valued variables discards solutions and may abort; a value listener
  registered while a value is excluded misses its return.

## Trusted base

1. **Coq 8.16.1 kernel** (`coqc`), including its `vm_compute` machine, which is used to evaluate
   concrete cases and refutation witnesses.
2. **Assumptions of the theorems**: `Print Assumptions` answers "Closed under the global context" for
   every theorem listed in MANIFEST.json; no axiom, no `Admitted`, no functor or module type, no
   plugin, no kernel flag. (`vcheck` also lists `Coq.ssr.ssrunder.Under_rel.*`: parameters of a module
   type of the standard library that is loaded with it; no theorem here depends on them.) Only the
   standard library is used (Lists, Arith, QArith, Lqa, Lia, Permutation, Strings, …).
3. **Faithfulness of the model** to the C++ text, which is by reading:
   * *Modelled, function by function*: include/lit.h; src/sat_core.cpp, include/sat_core.h, src/clause.cpp,
     src/constr.cpp, src/theory.cpp, src/sat_stack.cpp with their headers; src/arith/lin.cpp;
     src/arith/lra/lra_theory.cpp and lra_constraint.cpp; src/arith/dl/idl_theory.cpp and rdl_theory.cpp
     with their headers; src/ov/ov_theory.cpp and include/ov/*; include/sat_value_listener.h.
   * *Not in /repo, taken as their mathematical meaning*: the `utils` submodule — `rational` and
     `inf_rational` are exact (Q, pairs of Q; no overflow), `lbool` is three-valued; the standard
     containers. `idl`'s `inf()` sentinel is an absent value (`None`), its integers are unbounded
     (Idl.v, C81: with the sentinel and machine integers).
     Variable and clause counts do not overflow `size_t` (C01 treats the words themselves).
   * *Scheduling*: iteration over `unordered_map`/`unordered_set` (LRA watches, OV domains, watch of
     assertions) is an arbitrary permutation; `std::sort` by variable in the calls that state constraints is
     the stable sort; C78 proves that any other sort gives the same (with the exceptions listed there). In `record` (by
     decreasing level) it is any function that returns a permutation with levels not increasing (`sorter` in Base.v, the field `th_sort` of the
     operations), and the theories bound to a variable (`std::set` of addresses) are visited in any order: the theorems quantify over both; concrete cases and refutations run with the stable sort and the order of registration. The listeners of a variable are called in the order of registration (they cannot influence the core).
   * *Exceptions, memory*: allocation never fails; object lifetimes are respected by the client (no
     use of a destroyed core, a listener outlives its core).
   * *Simplified*: LRA and OV caches are keyed by the structure of the key instead of its text (C64 proves that
     looking up the text gives the same; Keys.v treats the text for the core); coefficients of expressions are finite rationals; rdl constraint
     weights have infinitesimal part 0 or −1, the only ones the API creates; DL `notes` and OV `obnd`
     are ghost logs of listener calls.
   * *Not modelled*: `operator<<`/`to_string` other than cache keys, the JSON library and number printing (C68 takes them as abstract),
     exceptions' texts, several theories at once
     other than two through the theory sum (ThSum): OV + LRA on one core end to end (C67), notification of many (C60). SAT + difference logic end to end is
     claimed at root level (C63) and, with one constraint for each pair of variables, for one open decision (C73): otherwise, off root level, its explanations do not meet the contract (C40, C41).
     At root level the contract asks less: a lemma recorded while nothing is decided may rest on root facts
     (`lemmas_at`, `rooted` in SatSpec.v) and need not name them.
4. The **API preconditions** assumed by the theorems (`legal` in Run.v, `llegal` in LraRun.v, `olegal`
   in OvRun.v …) are those asserted by the code or documented in its headers: constraints are created at
   root level, `assume` with an empty propagation queue and an unassigned or assigned literal of an existing
   variable, `pop` above root level; nothing is guaranteed after a root-level inconsistency
   (refuted as C48).

## Testing the theorems against wrong programs

`tools/mutate.py` applies an edit to a definition of the model in a scratch copy, rebuilds, and replaces
each proof that no longer goes through by one from a marker axiom; `Print Assumptions` then tells exactly
which theorems are lost. The attempts are in seeded/LOG.jsonl.
