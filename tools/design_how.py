# one line per property: what is modelled and how it is proved
HOW={
"C01":"PartitionedHypergraph operations as state transformers; induction over API histories (invariant `consistent`)",
"C02":"as C01: pin counts, connectivity sets, border-node query",
"C03":"frame of changeNodePart: only the moved node, two block weights and the pin counts of incident hyperedges change",
"C04":"interleaving semantics of changeNodePart (Conc.v), any number of threads; invariant relating counters to the in-flight threads; quiescent states are consistent and equal the replay of the reported results",
"C05":"same semantics; a block above its limit is always covered by in-flight reservations",
"C06":"potential argument over the log of SynchronizedEdgeUpdates per hyperedge",
"C07":"closed form of penalty and benefit terms is an invariant of initialization + deltaGainUpdate",
"C08":"as C07 for the cut gain cache","C09":"as C07 for the soed gain cache",
"C10":"gain cache micro operations interleaved with the moves; pending operations are accounted for in the invariant",
"C11":"metrics as reductions over arbitrary split trees","C12":"contribution(): exact for km1/soed/steiner; the cut version is refuted",
"C13":"bit-level codec of packed pin counts over integers mod 2^64","C14":"bit-level connectivity sets; iterator","C15":"SparsePinCounts inline/external lists as a finite map",
"C16":"DeltaPartitionedHypergraph overlay; simulation relation with the partition that would result","C17":"hash keys of the overlay",
"C18":"StaticHypergraph::contract, every schedule as explicit input","C19":"objective of a coarse partition equals the objective of its projection","C20":"well-formedness of the coarse hypergraph",
"C21":"FixedVertexSupport with interleaved contract calls","C22":"enforcement of fixed vertices after partitioning","C23":"API entry for fixed vertices",
"C24":"inductive relation `rb` over all bipartitions and all task interleavings; induction over the recursion; existence of runs by well-founded induction on k",
"C25":"hyperedge-wise additivity lemma, then induction over `rb`; refutations by concrete interleavings",
"C26":"gain recalculation of a global move sequence; per-hyperedge case analysis by first-in/last-out/remaining pins","C27":"best prefix scan under any split tree of tbb::parallel_scan; sequential variant","C28":"parallel revert as a concurrent run of Conc.v",
"C29":"bin packing of isolated nodes; induction over the restored nodes","C30":"swap-based incidence arrays, history invariant","C31":"composition of preprocessing, V-cycles and postprocessing","C54":"composition of preprocessing, an arbitrary API-conforming partitioner and postprocessing",
"C32":"digit parser with 64-bit bound","C33":"hMetis reader over byte strings against an independent grammar, any number of ranges","C34":"every read of the memory-mapped file has its offset checked","C35":"partition files","C49":"Metis reader against an independent grammar",
"C36":"parallel CSR construction; prefix sums and fetch-add positions in any order","C37":"graph construction including the in-place permutation",
"C38":"IEEE doubles through Flocq's rounding operator","C39":"balance check and imbalance","C40":"parameter strings","C41":"preset/type compatibility table",
"C42":"Floyd-Warshall as written, 32-bit distances","C43":"bit-set queries and table index","C50":"Dreyfus-Wagner as written, against the minimum over all connecting edge sets","C51":"Prim's algorithm as written, 2-approximation","C52":"the cached distance query is a function","C53":"connectivity test of the target graph",
"C44":"interleaving semantics of node acquisition","C45":"interleaving semantics of move numbering","C46":"parallel prefix sum under any split/join order","C47":"d-ary heap with handles","C48":"deadlock freedom and a decreasing measure for Conc.v",
"C55":"small-step interleaving semantics of matchVertices, one atomic access per step; invariant","C56":"ranking function plus an argument on the functional graph of partners: if all threads spin, some thread leaves the loop (cycle: its smallest node; otherwise: last node of a path)","C57":"invariant counting the weight on its way to a cluster","C58":"ownership invariant; refutations by concrete interleavings","C59":"composition of C55 with C18-C20 by induction over the passes",
"C60":"functional model of the merge loop (any order), the recursive insertion (fuel proved sufficient) and renumbering; invariant: emitted ++ todo ++ remaining is a permutation of all moves, tracked weights are the block weights of the prefix",
"C61":"interleaving semantics of the rebalancer tasks on top of the changeNodePart semantics; node claims as an ownership invariant, overload flags via the committed weight of a block, move ids by a permutation invariant; projection to C05/C06/C10",
"C62":"each parallel loop is the relation of all its interleavings (ParLoop.v); par_fold: commuting remaining effects give the closed form of the final state, which is symmetric in the nodes; the sorted vector is unique",
"C63":"invariant SI between sub-rounds (recorded = actual cluster weights, stale propositions only target grown clusters); refutations by executing the model",
"C64":"applying a batch of moves of distinct nodes in any interleaving is a legal changeNodePart history (exact deltas by C05); a batch with negative exact gain is reverted; stage 1 by block-pair budgets, stage 2 by the invalidation loop, whose overload test is a loop invariant and whose number of valid moves decreases",
"C65":"the propositions depend only on the partition before the sub-round; the result of an interleaved batch is its closed form; the activation loop is an atomic set insertion, so the queue is a permutation, and the next iteration sees it as a set",
"C66":"the recursive search equals the sequential one by strong induction on the lengths, using monotone cumulative weights; maximality because feasible pairs are closed under componentwise maximum",
"C67":"candidates of a round are a function of the partition; each block's sorted vector is unique; concurrent execution of moves of distinct nodes as in C64; overloaded blocks are never targets, so the prefix rule gives the weight after the round; refutation by executing the sequential function",
"C68":"per hyperedge: induction over the sorted movers with the pin counts of the partition in which all earlier candidates have moved, two-pin hyperedges by cases; per loop: invariant 'stored gain plus pending additions = sum over claimed hyperedges'; telescoping over the sorted candidates for the total; refutation for soed by a concrete instance",
"C69":"invariant over rounds: best metrics belong to the best partition (current or saved), which is acceptable iff the flag says so and is not worse than the input; rollback reproduces the saved partition; the moves of a round by C68; refutation of the stronger reading of the return value by a concrete run",
"C70":"the round is a function of the partition, locks and flags (C67, C68, concurrent moves); lockstep induction over two runs; termination by lexicographic induction: balanced flag, objective or number of weight vectors with smaller imbalance, remaining rounds",
"C71":"per objective: the precomputed scores are the sums over the hyperedges of the change of the edge cost (connectivity sets, pin counts); loop invariants of the scans over scores and over non-adjacent blocks: the current choice is feasible, exact and not worse than all blocks seen, for every coin",
"C72":"contracts for the move loop (exact delta by the attributed gains, C71 gives d <= 0), the rebalancer (C61) and the rollback; invariant over rounds: the stored old blocks are the current blocks for all initialised nodes; a failed round is undone exactly because the union of moved and appended nodes covers all changes",
"C73":"LPPool.v is a pool of tasks over a list of nodes whose changeNodePart calls run step by step on the machine of Conc.v without its guards; LPPoolThms.v proves the invariant that gives the guards (each node owned by at most one task, the node is where the task thinks it is, weights in flight accounted); LPPar.v instantiates it with moveVertex (any target and gain that passes the tests, since the reads race) and with the rollback; LPParProps.v plugs both and the rebalancer of C61 into the round structure of C72. The two refutations are evaluated executions.",
"C74":"FMRound.v is the product of the tracker machine (Tracker.v) and the pool of step-by-step changeNodePart calls (LPPool.v), with insertMove between the weight update and the hyperedge loop; an invariant over every reachable state links node status, local moves, calls in progress and recorded moves, gives the contract of changeNodePart and, when all tasks have returned, that the recorded sequence replays to the partition; FMRefine.v composes rounds with the rebalancer (C61), the interleaving (C60) and both rollbacks (C26-C28); FMExample.v runs a two-thread round through a sound executable version of the machine. Simplified: the gain cache values, priority queues and delta partition of the searches are replaced by arbitrary choices; only the advanced rebalancer is used",
"C75":"FlowApply.v models applyMoves statement by statement (weight deltas, block-wise weight update with undo loop, application with improvement and new cut hyperedges, rollback) over the sequential partition model; since applyMoves runs under a lock an execution is a list of calls with arbitrary sequences. Invariant: tracked weights = block weights <= limits, which makes the failing rollback impossible; the outcome of a call is characterised exactly by the partition the sequence leads to; the gain cache trace is a session of C07-C09.",
"C76":"`DetFlow.v` runs one task per block pair on the machine of `Conc.v` without its guards; `DetFlowThms.v` proves an invariant: the updates logged by a task are exactly those of its sequence applied alone (`slog`), because the pin counts of a block are only changed by the task of its pair; `DetFlowProps.v` concludes. Whole refinement: `det_flow`, scheduling decisions and flow results as an arbitrary function of the partition and the reports.",
"C77":"Model of the scheduler (Participation.v): the active pairs, counters, processed flags and the greedy matching as in the code. Invariant: the counter of a block is the number of its active pairs that are not processed; the lists contain exactly the active pairs. Induction over the blocks of one matching (maximality: every block with a pair left is visited or the matching is full, k/2 pairs) and over the requests of the round. reportResults is modelled at the level of loads and stores of the word of a vector<bool>; the lost update is a concrete pair of executions with different next rounds.",
"C78":"Model (Quotient.v): push_back and fetch_add are atomic steps, the loops are all interleavings of their iterations. Lemma: for every interleaving the list of a pair is a permutation of its old content and everything the iterations push for it, the weight grows by what they add. Initialization: the connectivity set is duplicate free and consists of the blocks with pins (C01). Preservation: every block a hyperedge touches after a matching (or sequence) but not before is among the reported ones (C75, C76), so an unlisted pair of blocks has a new one. The refutation is a concrete execution.",
"C79":"INA.v models the header pointers, entries and versions; INASpec.v is an independent forest-of-histories specification (legal operations, nets, members). INALoop/INARep/INAOps*/INAThms prove a representation invariant (ring = member list, iterator ring = non-empty members, entry array sorted by removal version) preserved by each operation, framed to the tree it touches. Theorems: incident nets and degree, reports of restoreIncidentNets, full restoration; refuted: contracting again after an uncontraction without reset, reset with removed hyperedges (n-level V-cycles), stale flag of removeEdge.",
"C80":"Batch.v models the sorted child lists, the version roots, the grouping by interval and every atomic step of a thread with the shared assigner; BatchSort/BatchThr: per-thread invariant for arbitrary batch indices >= the required one; BatchSys: invariant of the shared counters over all interleavings; BatchProps: completeness by induction on the depth, order, positions. The doc claim that positions stay below max_batch_size is refuted.",
"C81":"the incidence array slots, the valid size and the pin counts are modelled operation by operation; an invariant over the contraction sequence characterises valid and invalid pins by the case flags; an invariant over the batches characterises the pins of stage b; the image of the representative map is computed separately",
"C82":"DynGain.v models each callback as the list of its atomic additions to the cache, as a function of the pins and pin counts at that moment; DynGainThms.v proves that one callback adds exactly the difference of the hyperedge's contribution before and after the step, for all three caches; DynGainRun.v adds this up along the interleavings of C81 (a restored pin always finds another pin of its block); DynGainProps.v sums over hyperedges and permutations of the additions.",
"C83":"NetRemoval.v models the bucket loops literally (valid flags, break on a different hash, weight written after the inner loop) for any bucket order and any sorted bucket; NetRemovalThms.v characterises the result (induction over the loops, then over buckets); NetRemovalProps.v derives the objective, the inverse, nested histories, pin counts and gain caches, and with C81 that the representative has its old pins again at restore time.",
"C84":"RegTree.v: transition system with one program counter per thread (27 points; every lock operation, unlocked read and tree write is one step), unbounded threads, started calls with arbitrary pairs, version increments at quiescence. RegTreeSpec.v: legal sequential contraction sequences, forest, cycle. RegTreeInv*.v: 15-part inductive invariant (lock ownership, facts protected by held locks, counter = open children with in-flight corrections, stale pairs exceed the weight limit, one executor per contracted node, intervals, a responsible thread for every contraction that is ready). RegTreeForest.v: forest invariant when final checks are serialised. Cycle and hang: an explicit 4-thread schedule, evaluated, plus an invariant over all continuations.",
"C85":"CacheRefine.v: each refiner as a relation on (partition, cache) built from the existing small-step models (label propagation pool LPPool/LPPar, rebalancer Rebalance.v, deterministic flows DetFlow.v, concurrent changeNodePart Conc.v), now keeping the cache and the sets of marked nodes; sequences of refiners by reflexive-transitive closure.  CacheRefineThms.v: simulation - the steps do not read penalty terms, so C10's invariant also holds from a cache with out-of-date entries, which stay confined to the old ones and the moved nodes; invariants - every accepted move's node has its flag set when the task has left the call (label propagation), is in _was_moved (flows) or in the move list (rebalancer); repair restores exactness; induction over the sequence.",
"C86":"The models of C84 (contraction protocol), C80 (batch hierarchy) and C81 (pins of a hyperedge) are run together: a hyperedge is contracted inside the protocol runs, the batches are those of a finished batch construction on the resulting tree. An invariant of the combined runs orders the contractions of a hyperedge by version and contraction interval; with the sibling order and parent-first theorems of C80 this gives the order condition of C81. Weights: the tree's weights are sums over children; a batch of uncontractions in any order keeps the sums.",
"C87":"Deep.v models the tree, the number of blocks of an uncoarsening step and the recursion as an inductive relation over all level sizes; DeepTree.v computes the levels in closed form and DeepCtl.v proves the thread distribution, the number of blocks of each call by mutual induction, and termination by induction on the threads.",
"C88":"Extend.v models the extraction of all blocks (counters, streams, construction) and proves it yields induced sub-hypergraphs for every order; ExtendProps.v expresses the pins of each new block by those of the old one and the sides of the bipartition, and derives weights, connectivity and objective per hyperedge.",
"C89":"IPPool.v: the comparison is proved equal to a separate preference relation; a fold with it keeps a maximal element; in deterministic mode the most preferred run is always inserted and never evicted, whatever the heap does, and for infeasible runs some entry of the population is as balanced as every earlier commit",
"C90":"KLMap.v models the gain with its marks, the lazy queue, rollback and the loop over passes; KLMapThms.v proves that the gain is the change of the cost (only hyperedges with exactly one of the two nodes count), carries the chain of swaps through a pass and proves termination by a lexicographic measure; GreedyMap.v models the construction with an abstract queue and proves it complete and injective by an invariant",
"C91":"MapApply.v composes the models of contraction (Contract.v, C18-C20), greedy mapping and local search (C90): rank/select shows that block_mapping inverts the renumbering of contract; contraction preserves the weighted sum of any function of pin sets; one-to-one results are injective renamings. Refutations by computation.",
"C92":"DynMap.v models the table with timestamps, the linear probing, operator[], grow, rehash and clear. Invariant: live positions point injectively to entries with distinct keys, every key is reached from its hash over live positions, and one position is free (pigeonhole), so probing ends. Simulation by the specification map. FlatMap.v: the same specification for the variant with entries in place (DynamicFlatMap), which rehashes in the order of the positions.",
"C93":"FixedMap.v uses the table and the probing invariant of DynMap.v (C92) without growth; the number of entries is bounded by the number of keys of the specification map. The refutation is an induction over the fuel of the search in a full table of capacity 2.",
"C94":"SparseSet.v models the two arrays with arbitrary initial contents; the invariant is that the sparse array points back to each of the first size() dense entries; the representation is related to a specification map of the operations.",
}
