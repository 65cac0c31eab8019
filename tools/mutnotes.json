{
 "s78": {
  "tightened": [
   "C59_stack_listeners (new property C59)"
  ],
  "note": "no theorem failed at first: C22/C23 said nothing about notifications sent by sat_stack::pop; C59_stack_listeners was added and fails on this edit"
 },
 "s08": {
  "note": "benign edit (order of propagation); proofs about enqueue break because they name the queue"
 },
 "s11": {
  "note": "observationally benign edit"
 },
 "s22": {
  "note": "benign edit"
 },
 "s55": {
  "note": "sound but C09 (asserting level) is false of it"
 },
 "s61": {
  "note": "benign edit"
 },
 "s77": {
  "note": "watch lists of the copy would hold constraints in an order of its own: benign edit"
 },
 "s89": {
  "note": "benign edit"
 },
 "s75": {
  "tightened": [
   "C60_theories_are_told (new property C60)"
  ],
  "note": "only the theorems of the SAT core were rebuilt for this entry and none failed: none of them binds a theory; C60_theories_are_told was added, its proof needs that bind forgets no theory (ThGrow.bind_eq)"
 },
 "n23": {
  "note": "benign under the documented precondition; proofs name the guard"
 },
 "n37": {
  "note": "less propagation only: benign for soundness; proofs name the branch"
 },
 "n54": {
  "note": "benign edit"
 },
 "n56": {
  "note": "assertion only: benign"
 },
 "p08": {
  "tightened": [
   "C65_lra_answers_partial"
  ],
  "note": "survived at first: C65_lra_answers_partial said nothing about pops of the copy; tightened, redone as q01, which it catches"
 },
 "p34": {
  "note": "the edit does not type check as written; redone as q02"
 },
 "q12": {
  "note": "caught through the arity of the call only; see r01"
 },
 "v24": {
  "note": "benign edit: c + c is zero exactly when c is; only the proof script notices"
 }
}