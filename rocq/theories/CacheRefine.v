(** CacheRefine.v - the gain cache through the parallel refiners: every refiner updates the cache while it moves nodes and repairs
    the entries its moves invalidate afterwards.
    /repo/mt-kahypar/partition/refinement/flows/deterministic/deterministic_flow_refinement_scheduler.cpp:173-181,
    label_propagation/label_propagation_refiner.cpp:169-175, 196-204 and 298-304, rebalancing/advanced_rebalancer.cpp:459-465,
    flows/flow_refinement_scheduler.cpp:342-351. *)
From Verif Require Import Base Spec PHG GainCache Metrics PropsA Conc ConcRun GainCacheProofs Scan GainComp LP LPPool LPPar DetLP Rebalance RebalanceThms DetFlow DetFlowThms.

Section Steps.
Variables (H : hypergraph) (k : nat) (G : gain_policy) (cu : hypergraph -> sync_update -> list mop) (o : objective).

(** Deterministic flow refinement with gain cache updates (:64-183, DetFlow.v), keeping track of the cache and of _was_moved. *)
Section Det.
Variable next : partition -> list report -> option (list task).
Inductive det_flow_c : phg -> cache -> list nat -> list report -> phg -> cache -> list nat -> Prop :=
| dc_stop s c wm h : next (part s) h = None -> det_flow_c s c wm h s c wm
| dc_match s c wm h ts s1 c1 wm1 imps new s2 c2 wm2 : next (part s) h = Some ts -> valid_matching H k (part s) ts ->
    apply_matching H o cu s c wm ts s1 c1 wm1 imps new ->
    det_flow_c s1 c1 wm1 (h ++ [(ts, imps, new_of new)]) s2 c2 wm2 -> det_flow_c s c wm h s2 c2 wm2.
(** :173-181: all nodes are visited (in some order); recomputeInvalidTerms of different nodes do not interfere. *)
Definition det_flow_repair (s : phg) (c : cache) (wm order : list nat) : cache :=
  repaired G H s c (filter (fun v => mem v wm) order).
End Det.

(** One call of moveActiveNodes by parallel tasks (LPPar.v), with the cache, and the repair of all entries with a flag, :169-175. *)
Section Lp.
Variables (L : nat -> Z) (fixed : nat -> bool) (mu rebal : bool) (thr : Z).
Definition lp_phase_c (u : bool) (act : list nat) (s : phg) (c : cache) (x : nact) (s' : phg) (c' : cache) : Prop :=
  exists n ls st mvd, prun H n cu (gain_of o) (fun _ _ => true) (pmay k L fixed rebal u) (pagain L u) (pfin H mu thr u) (pinit s c act x) ls = Some st /\
    pdone n st /\ Permutation mvd (p_fl st) /\ s' = sh (p_c st) /\ c' = repaired G H s' (gc (p_c st)) mvd.
(** The rollback by parallel tasks, :298-304, and the repair of the entries of the list, :196-204. *)
Definition lp_rollback_c (l : list nat) (od : nat -> option nat) (s : phg) (c : cache) (s' : phg) (c' : cache) : Prop :=
  exists n ls st l', prun H n cu (gain_of o) (rskip od) (rmay od) (fun _ _ _ _ => None) (fun _ _ _ _ _ _ y => y) (pinit s c l (fresh od (fun _ => false))) ls = Some st /\
    pdone n st /\ Permutation l' l /\ s' = sh (p_c st) /\ c' = repaired G H s' (gc (p_c st)) l'.
End Lp.

(** What may happen to the partition and the gain cache between two points at which the cache is used. *)
Inductive refiner : phg * cache -> phg * cache -> Prop :=
| by_sequential_moves s c ops s' c' : Forall (gc_op_ok H) ops -> gc_run G H (s, c, []) ops = Some (s', c', []) -> refiner (s, c) (s', c')
| by_label_propagation L fixed mu rebal thr u act s c x s' c' : incl act (nodes H) -> NoDup act ->
    lp_phase_c L fixed mu rebal thr u act s c x s' c' -> refiner (s, c) (s', c')
| by_lp_rollback l od s c s' c' : incl l (nodes H) -> NoDup l -> (forall v, In v l -> exists b, od v = Some b /\ (b < k)%nat) ->
    lp_rollback_c l od s c s' c' -> refiner (s, c) (s', c')
| by_rebalancer n L fixed s c st : reb_reach H n cu L s c fixed st -> joined n st -> refiner (s, c) (sh (rc st), recomputed H G st)
(** Moves by parallel tasks, then the repair of all nodes they have moved, as in multitry_kway_fm.cpp:151, global_rollback.cpp:184 and 457 and
    flow_refinement_scheduler.cpp:342-351. *)
| by_repaired_moves n s c l st marks : crun H n cu (cinit s c) l = Some st -> quiescent n st -> incl (moved_nodes st) marks ->
    refiner (s, c) (sh st, repaired G H (sh st) (gc st) marks)
| by_deterministic_flows next wm order h s c s' c' wm' : incl wm (nodes H) -> Permutation order (nodes H) ->
    det_flow_c next s c wm h s' c' wm' -> refiner (s, c) (s', det_flow_repair s' c' wm' order).
Inductive refiners : phg * cache -> phg * cache -> Prop :=
| rf_none x : refiners x x
| rf_step x y z : refiner x y -> refiners y z -> refiners x z.
End Steps.
