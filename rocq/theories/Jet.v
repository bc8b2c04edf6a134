(** Jet.v - the deterministic Jet refiner for hypergraphs,
    mt-kahypar/partition/refinement/deterministic/deterministic_jet_refiner.cpp:46-261, 309-424, with the deterministic rebalancer (DetReb.v).
    Simplifications: the best move of a node (to, gain) and its isolated block gain are arbitrary functions of the partition
    (gain_computation); floor(_negative_gain_factor * isolated_block_gain) is an arbitrary function of the dynamic round and the isolated
    block gain; the test of relative_improvement_threshold (cpp:166) is an arbitrary function of both qualities; the imbalance (a
    double) is an arbitrary function of the block weights with an arbitrary strict order; the gain cache is not initialized
    (the rebalancer rejects it otherwise). *)
From Verif Require Import Base Spec SpecLemmas PHG PHGProofs Conc ConcMore ConcRun Objective GainCache Metrics PropsA DetLP DetLPApply DetLPThms DetLPTotal DetReb DetRebThms DetLPProps DetRebProps ParLoop Afterburner AfterburnerThms Afterburner2 AfterburnerProps.

Section Jet.
Variables (H : hypergraph) (k : nat) (L dead : nat -> Z) (fixed : nat -> bool).
Variables (may : (nat -> Z) -> nat -> Z -> bool) (prio : Z -> Z -> Z).
Variables (scores : partition -> nat -> list (nat * Z)) (iso : partition -> nat -> Z).
Variable o : objective.
Variables (jbest : partition -> nat -> nat * Z) (neg : nat -> Z -> Z) (hdt : nat).
Variables (D : Type) (imb : list Z -> D) (dlt : D -> D -> bool) (big : Z -> Z -> bool).
Variables (large_k : bool) (removed : Z) (detmax : nat).

(** isBorderNode, partitioned_hypergraph.h:705-720; [hdt]: HIGH_DEGREE_THRESHOLD *)
Definition border (P : partition) (v : nat) : bool := Nat.leb (length (inc H v)) hdt && existsb (fun e => 1 <? connectivity H P e) (inc H v).
Definition own (P : partition) (v : nat) : nat := match P v with Some b => b | None => O end.
(** computeActiveNodesFromGraph, cpp:180-216: _gains_and_target; [lk]: _locks, [dr]: the dynamic round *)
Definition accept (dr : nat) (P : partition) (v : nat) : bool :=
  let (t, g) := jbest P v in ((g <=? 0) || (g <? neg dr (iso P v))) && negb (oeq (P v) (Some t)).
Definition jactive (dr : nat) (lk : nat -> bool) (P : partition) (v : nat) : bool :=
  border P v && negb (lk v) && negb (fixed v) && accept dr P v.
Definition jgt (dr : nat) (lk : nat -> bool) (P : partition) (v : nat) : Z * nat :=
  if jactive dr lk P v then (snd (jbest P v), fst (jbest P v)) else (0, own P v).
Definition tomove (P : partition) (gt : nat -> Z * nat) (v : nat) : lmv := mkL v (own P v) (tg gt v) 0.
Definition isbal (s : phg) : bool := isBalanced s k L large_k removed.
Definition wts (s : phg) : list Z := map (partWeight s) (seq 0 k).
(** The state of the refiner: the partition, _locks and _block_has_only_heavy_vertices of the rebalancer. *)
Record jst := mkJ { js : phg; jlk : nat -> bool; jhv : nat -> bool }.
(** One round, cpp:98-160: active nodes, afterburner, moves, rebalancing.  [g]: the decrease of current_metrics.quality. *)
Inductive jround (dr : nat) (x : jst) : jst -> Z -> Prop :=
| jround_intro : forall A a s1 g1 s2 g2 hv2,
    let P := part (js x) in let gt := jgt dr (jlk x) P in
    Permutation (filter (jactive dr (jlk x) P) (nodes H)) A ->
    afterburn H o (js x) gt A a ->
    apply_all H o (map (tomove P gt) (filter (fun v => ag a v <=? 0) A)) (js x) s1 g1 ->
    (if isbal s1 then s2 = s1 /\ g2 = 0 /\ hv2 = jhv x
     else exists r, reb H k L dead fixed may prio scores iso o (max_rounds detmax) (jhv x) s1 s2 g2 hv2 r) ->
    jround dr x (mkJ s2 (fun v => mem v (filter (fun v => ag a v <=? 0) A)) hv2) (g1 + g2).
(** best_metrics, _best_partition, _current_partition_is_best, _was_already_balanced *)
Record jbs := mkB { bq : Z; bi : D; bp : partition; cur : bool; was : bool }.
(** runJetRounds, cpp:87-178.  [n]: rounds_without_improvement, [N]: num_iterations, [q]: current_metrics.quality *)
Inductive jrounds (dr N : nat) : nat -> Z -> jst -> jbs -> jst -> jbs -> Prop :=
| jr_stop : forall n q x b, (N <= n)%nat -> jrounds dr N n q x b x b
| jr_better : forall n q x b x1 g n1 x2 b2, (n < N)%nat -> jround dr x x1 g ->
    let b1 := mkB (bq b) (bi b) (if cur b then part (js x) else bp b) (cur b) (was b) in
    let q1 := q - g in let i1 := imb (wts (js x1)) in
    (q1 <? bq b) && was b && isbal (js x1) || negb (was b) && dlt i1 (bi b) = true ->
    n1 = (if big (bq b) q1 then 0%nat else S n) ->
    jrounds dr N n1 q1 x1 (mkB q1 i1 (bp b1) true (was b || isbal (js x1))) x2 b2 ->
    jrounds dr N n q x b x2 b2
| jr_worse : forall n q x b x1 g x2 b2, (n < N)%nat -> jround dr x x1 g ->
    let b1 := mkB (bq b) (bi b) (if cur b then part (js x) else bp b) (cur b) (was b) in
    let q1 := q - g in let i1 := imb (wts (js x1)) in
    (q1 <? bq b) && was b && isbal (js x1) || negb (was b) && dlt i1 (bi b) = false ->
    jrounds dr N (S n) q1 x1 (mkB (bq b) (bi b) (bp b1) false (was b)) x2 b2 ->
    jrounds dr N n q x b x2 b2.
(** rollbackToBestPartition, cpp:233-261 *)
Definition back_moves (P B : partition) : list lmv :=
  flat_map (fun v => if oeq (P v) (B v) then [] else [mkL v (own P v) (own B v) 0]) (nodes H).
(** refineImpl, cpp:46-86: the loop over the dynamic rounds dr, ..., dr + m - 1 *)
Inductive jdyn (N : nat) : nat -> nat -> jst -> jbs -> jst -> jbs -> Prop :=
| jd_end : forall dr x b, jdyn N dr 0 x b x b
| jd_keep : forall dr m x b x1 b1 x2 b2, jrounds dr N 0 (bq b) (mkJ (js x) (fun _ => false) (jhv x)) b x1 b1 -> cur b1 = true ->
    jdyn N (S dr) m x1 b1 x2 b2 -> jdyn N dr (S m) x b x2 b2
| jd_roll : forall dr m x b x1 b1 s2 g x2 b2, jrounds dr N 0 (bq b) (mkJ (js x) (fun _ => false) (jhv x)) b x1 b1 -> cur b1 = false ->
    apply_all H o (back_moves (part (js x1)) (bp b1)) (js x1) s2 g ->
    jdyn N (S dr) m (mkJ s2 (jlk x1) (jhv x1)) (mkB (bq b1) (bi b1) (bp b1) true (was b1)) x2 b2 -> jdyn N dr (S m) x b x2 b2.
(** refineImpl with the metrics (q, i) of the caller; [B0]: the old content of _best_partition; [hv]: the flags of the rebalancer. *)
Definition jet (M N : nat) (q : Z) (i : D) (hv : nat -> bool) (B0 : partition) (s s' : phg) (q' : Z) (i' : D) (ret : bool) : Prop :=
  exists x b, jdyn N 0 M (mkJ s (fun _ => false) hv) (mkB q i B0 true (isbal s)) x b /\ s' = js x /\ q' = bq b /\ i' = bi b /\ ret = (bq b <? q).
End Jet.
