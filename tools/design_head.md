# Formal model of Mt-KaHyPar in Rocq (Coq 8.16.1)

The source is `/repo` (read as text, never built). The model lives in `rocq/theories`; every model definition cites the file
and lines it transcribes. (This file is generated by `tools/design.py` from `tools/design_head.md`, `tools/design_tail.md`,
`tools/claims.py` and the output of `Print Assumptions`.)

## Layout

* `Spec.v` (hypergraph, partition, block weight, pin count, connectivity, cut / km1 / soed, balance), `TargetSpec.v` (distances and Steiner
  trees), and small specification sections at the top of other files (`extracted` in `Extract.v`, grammars in `IORead*.v`, `prefix` in
  `Rollback.v`, ...): what the English properties talk about, written without the code's algorithms.
* Model files transcribe the code function by function; `*Proofs.v` and the second half of the other files contain the lemmas;
  theorems that answer a property start with its id (`C24_...`). Beside each theorem an `Example ex_Cxx` (or an existence
  theorem) shows a concrete, non-trivial case that meets its hypotheses.
* Names with `_refuted_` prove that a tempting stronger reading of the property is false of the code as it is (a finding), always next
  to the strongest reading that could be proved.

## Modelling conventions

* Node, hyperedge and block ids are `nat`; weights and gains are `Z`, unbounded unless the property is about overflow or wrap-around, in
  which case the wrap is written out (`mod 2^32`, `mod 2^64`, int32 range checks).
* Arrays are total functions with point update; ids outside the array are excluded by an explicit guard: an operation whose
  release-build behaviour would be undefined (violated `ASSERT`, out-of-bounds access, division by zero, out-of-range conversion)
  returns `None` (or a distinct fault value). Theorems state either that `None` cannot occur or what holds when it does not.
* Concurrency: interleaving small-step semantics; each atomic read-modify-write, atomic load/store and lock operation is one step; any
  thread may take the next step. Memory is sequentially consistent: weak-memory reorderings of the relaxed accesses are not modelled.
* `tbb::parallel_for` / `parallel_reduce` / `parallel_scan` are modelled by arbitrary orders (permutations) or arbitrary
  split/join trees, and the theorems quantify over them.
* Floating point: where a property depends on it (`Weights.v`, `Api.v`), IEEE double arithmetic through Flocq's rounding operator (no NaN / infinity).
* `std::sort` is an arbitrary sorting function where ties matter, otherwise insertion sort (the result is unique).
