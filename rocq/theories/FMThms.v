(** FMThms.v - C74: what multi-try k-way FM guarantees, for every interleaving of its searches and every decision they make. *)
From Verif Require Import Base Spec SpecLemmas WfCheck PHG PHGProofs Objective GainCache GainCacheProofs Metrics Conc ConcProofs ConcMore ConcRun PropsA Rollback RollbackProofs Scan Revert SeqRollback.
From Verif Require Import LP LPPool LPPoolThms FMRound Interleave Rebalance RebalanceThms FMRefine.
From Verif Require Tracker UncRound.

(** The refiner can start a call: its trackers went through any history of rounds, no round is in progress, and the partition is complete
    and consistent. *)
Definition fm_can_start (H : hypergraph) (k N : nat) (tasks : Z) (S : fmstate) : Prop :=
  Tracker.reach MAXID N tasks (fs_t S) (fs_log S) /\ Tracker.inround (fs_t S) = false /\ started H (fs_s S) /\ pk (fs_s S) = k.
(** Sizes and weights fit into the types; N: size of the tables; at most 20 tasks (C44_refuted_many_tasks). *)
Definition fm_sizes (H : hypergraph) (k N : nat) (tasks : Z) : Prop :=
  Z.of_nat N + 23 <= MAXID /\ 0 <= tasks <= 20 /\ (length (nodes H) <= N)%nat /\ (0 < k)%nat /\
  (forall v, In v (nodes H) -> 0 <= nw H v) /\ (forall e, In e (edges H) -> 0 <= ew H e) /\ total_weight H <= MAXW.

(** A call of refine never makes the objective worse; the amount subtracted from metrics.quality is the exact change, so the reported
    quality stays exact and the returned flag tells whether the partition improved; a partition that respects the limits still does;
    fixed vertices stay in their blocks; and the refiner can be called again. *)
Theorem C74_fm_never_worse : forall H k n mops N tasks fixed L Lreb R g obj S imp S', fm_sizes H k N tasks -> fm_can_start H k N tasks S ->
  In (R, g, obj) [(km1_rollback, km1_gain_of, km1); (cut_rollback, cut_gain_of, cut); (soed_rollback, soed_gain_of, soed)] ->
  fm_refine H k n mops N tasks fixed L Lreb R g S imp S' ->
  obj H (part (fs_s S')) <= obj H (part (fs_s S)) /\
  (forall quality, quality = obj H (part (fs_s S)) -> quality - imp = obj H (part (fs_s S'))) /\
  (0 < imp <-> obj H (part (fs_s S')) < obj H (part (fs_s S))) /\
  (balanced H (part (fs_s S)) k L -> balanced H (part (fs_s S')) k L) /\
  (forall v, In v (nodes H) -> fixed v = true -> part (fs_s S') v = part (fs_s S) v) /\
  fm_can_start H k N tasks S'.
Proof.
  intros H k n mops N tasks fixed L Lreb R g obj S imp S' (Z1 & Z2 & Z3 & Z4 & Z5 & Z6 & Z7) Cs Ho Rf.
  destruct (refine_good H k n mops N tasks fixed L Lreb Z1 Z2 Z3 Z5 Z6 Z7 Z4 R g obj S imp S' Ho Cs Rf) as (A1 & A2 & A3 & A4 & A5).
  split; [lia|]. split; [intros q ->; lia|]. split; [lia|]. split; [exact A4|]. split; [exact A5|exact A1].
Qed.

(** The searches of a round, under every interleaving: all calls of changeNodePart respect its contract (every execution is one of the
    guarded machine of Conc.v), and when all tasks have returned the partition is consistent and is exactly the result of executing the
    tracked move sequence one by one from the partition at the start of the round, each node being moved at most once, from its
    block at the start of the round ([after_round]). *)
Theorem C74_searches : forall H k n mops N tasks fixed S T1 c x F, fm_sizes H k N tasks -> fm_can_start H k N tasks S ->
  Tracker.step MAXID N tasks (fs_t S) [Tracker.ERound] T1 ->
  jreach H k n mops N tasks fixed (fm_start H T1 (Tracker.ERound :: fs_log S) (fs_s S) c x) F ->
  (exists ls, crun H n mops (cinit (fs_s S) c) ls = Some (p_c (f_p F))) /\
  (all_idle F -> after_round H k (part (fs_s S)) (view (UncRound.itr_of (f_t F))) (sh (p_c (f_p F))) /\
     forall v, fixed v = true -> part (sh (p_c (f_p F))) v = part (fs_s S) v).
Proof.
  intros H k n mops N tasks fixed S T1 c x F (Z1 & Z2 & Z3 & Z4 & Z5 & Z6 & Z7) Cs S1 Jr. split.
  - destruct (round_begin H k N tasks Z1 Z2 S T1 Cs S1) as (R1 & Ir & Em & Id & _). destruct Cs as (_ & _ & (WF & CS & HC) & Ek).
    pose proof (J_start H k n mops N tasks fixed Z1 Z2 WF (fs_s S) c x CS HC Ek T1 (Tracker.ERound :: fs_log S) R1 Ir Em Id) as J0.
    pose proof (jreach_J H k n mops N tasks fixed Z1 Z2 WF Z5 Z7 (fs_s S) c x Ek _ F J0 Jr) as J1.
    destruct (i_run _ _ _ _ _ _ _ _ _ _ _ _ (j_pi _ _ _ _ _ _ _ _ _ _ J1)) as (ls & E & _). exists ls. exact E.
  - intros Ai. destruct (plain_end H k n mops N tasks fixed (fun _ => 0) (fun _ => 0) Z1 Z2 Z3 Z5 Z6 Z7 Z4 S T1 c x F Cs S1 Jr Ai) as (_ & _ & _ & _ & A & _ & _ & _ & _ & _ & Fx & _). split; assumption.
Qed.

(** After the searches the rest of the round cannot fail: whatever the rebalancer did, the interleaving stays within the move table,
    and the roll-forward of the sequential rollback completes, for the original and for the interleaved sequence. *)
Theorem C74_round_never_fails : forall H k n mops N tasks fixed L Lreb S T1 c x F, fm_sizes H k N tasks -> fm_can_start H k N tasks S ->
  Tracker.step MAXID N tasks (fs_t S) [Tracker.ERound] T1 ->
  jreach H k n mops N tasks fixed (fm_start H T1 (Tracker.ERound :: fs_log S) (fs_s S) c x) F -> all_idle F ->
  let s1 := sh (p_c (f_p F)) in
  let t := UncRound.itr_of (f_t F) in
  forall g, In g [km1_gain_of; cut_gain_of; soed_gain_of] ->
  (forall n' cu c' l st, crun H n' cu (cinit s1 c') l = Some st -> quiescent n' st -> Permutation (begins l) (reverts (view t) 0) ->
     exists q, seq_forward H (view t) L g (sh st) = Some q) /\
  (forall n1 cu c1 RB sched, reb_reach H n1 cu Lreb s1 c1 fixed RB -> joined n1 RB -> merge_sched k (moves_by_part RB) sched ->
     exists t', interleave (nw H) k L (wt (fs_s S)) t (moves_by_part RB) sched = Some t' /\ (length (i_order t') <= N)%nat /\
       forall n' cu c' l st, crun H n' cu (cinit (sh (rc RB)) c') l = Some st -> quiescent n' st -> Permutation (begins l) (reverts (view t') 0) ->
       exists q, seq_forward H (view t') L g (sh st) = Some q).
Proof.
  intros H k n mops N tasks fixed L Lreb S T1 c x F (Z1 & Z2 & Z3 & Z4 & Z5 & Z6 & Z7) Cs S1 Jr Ai s1 t g Hg.
  destruct (plain_end H k n mops N tasks fixed (fun _ => 0) (fun _ => 0) Z1 Z2 Z3 Z5 Z6 Z7 Z4 S T1 c x F Cs S1 Jr Ai) as (_ & _ & St1 & Pk1 & A & OF & Ids & _). fold s1 t in St1, Pk1, A, OF, Ids.
  assert (G : forall t s, after_round H k (part (fs_s S)) t s -> forall n' cu c' l st, crun H n' cu (cinit s c') l = Some st -> quiescent n' st -> Permutation (begins l) (reverts t 0) ->
     exists q, seq_forward H t L g (sh st) = Some q).
  { intros t0 s0 A0 n' cu c' l st E Q Pm.
    destruct (C27_sequential_rollback_round H k (part (fs_s S)) t0 L s0 n' cu c' l st (mkSeq s0 0 0 0 0) 0 cu c' [] st A0 Z5 Z7 Z4 E Q Pm) as ((X1 & X2 & X3) & _).
    destruct Hg as [<-|[<-|[<-|[]]]]; assumption. }
  split; [exact (G (view t) s1 A)|]. intros n1 cu c1 RB sched Rr Jd Ms.
  destruct Cs as (_ & _ & (WF & CS & HC) & Ek).
  assert (Hi : forall p, (p < k)%nat -> wt (fs_s S) p = block_weight H (part (fs_s S)) p) by (intros p Hp; apply (c_wt _ _ CS); lia).
  destruct (C61_rebalancer H n1 cu Lreb s1 c1 fixed RB St1 Z5 Rr Jd) as (St2 & Pk2 & _).
  destruct (C61_reported_moves H n1 cu Lreb s1 c1 fixed RB St1 Z5 Rr Jd) as (_ & _ & _ & _ & RBk & RBp). rewrite Pk1 in RBk, RBp.
  assert (HC' : complete H (part (fs_s S)) k) by (rewrite <- Ek; exact HC). pose proof (ar_round _ _ _ _ _ A) as RO.
  destruct (rebalanced_sequence H k (part (fs_s S)) t s1 (moves_by_part RB) (sh (rc RB)) A RBk ltac:(intros v _; symmetry; apply RBp)) as [RBk' PR].
  destruct (UncRound.C60_interleaved_sequence H k (part (fs_s S)) t (moves_by_part RB) sched L (wt (fs_s S)) WF Z5 HC' RO OF Ids RBk' Ms Hi) as (t' & E3 & RO2 & _ & Le3 & Pf2 & _).
  exists t'. split; [exact E3|]. split; [lia|]. apply G. constructor; auto; [congruence|apply St2|]. intros v Hv. rewrite Pf2. apply PR, Hv.
Qed.
