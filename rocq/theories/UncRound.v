(** UncRound.v - C60: an unconstrained FM round (multitry_kway_fm.cpp:84-232 with is_unconstrained): the localized searches
    insert moves into the tracker (Tracker.v), the rebalancer moves further nodes, the two sequences are interleaved
    (Interleave.v) and the result is rolled back to the best balanced prefix (SeqRollback.v). *)
From Verif Require Import Base Spec SpecLemmas WfCheck PHG PHGProofs Objective GainCache GainCacheProofs Conc ConcProofs ConcRun Rollback RollbackProofs Scan Revert SeqRollback Tracker Interleave.

(** The tracker after the localized searches, as interleaveMoveSequenceWithRebalancingMoves reads it. *)
Definition itr_of (s : Tracker.st) : itr :=
  mkI (first s) (map (fun j => match order s j with Some m => mkIM (mv_node m) (Some (mv_from m)) (mv_to m) | None => mkIM 0 None 0 end)
                     (seq 0 (Z.to_nat (running s - first s)))) (ofnode s).

(** After every round of concurrent searches, whenever no insertion is in progress, the tracker meets the preconditions
    below (round_ok, of_ok, room for one id per node), if the inserted moves are moves of the partition [P0]. *)
Theorem C60_searches_deliver N T (H : hypergraph) k P0 s log : Z.of_nat N + 23 <= MAXID -> 0 <= T <= 20 ->
  reach MAXID N T s log -> (forall t, pend (tpc (th s t)) = None) ->
  (forall id m, In (id, m) (inserted log) -> In (mv_node m) (nodes H) /\ P0 (mv_node m) = Some (mv_from m) /\
      mv_from m <> mv_to m /\ (mv_to m < k)%nat) ->
  (length (nodes H) <= N)%nat ->
  round_ok H k P0 (view (itr_of s)) /\ of_ok (itr_of s) /\ i_first (itr_of s) + Z.of_nat (length (nodes H)) <= MAXID.
Proof.
  intros HN HT R Q Lg Hn. destruct (C45_round_ok N T H k P0 s log HN HT R Q Lg) as [RO _].
  destruct (C45_move_ids MAXID N T HN HT s log R) as (A1 & A2 & A3 & A4 & A5 & A6 & A7). destruct (A7 Q) as (B1 & B2 & B3). clear A7.
  assert (Ev : view (itr_of s) = tracker_of s).
  { unfold view, itr_of, tracker_of. cbn [i_first i_order i_of]. f_equal. rewrite map_map. apply map_ext. intros j. destruct (order s j) as [m|]; reflexivity. }
  split; [rewrite Ev; exact RO|]. pose proof (inv2_reach MAXID N T HN HT s log R) as J. split.
  - intros u Hu. cbn [itr_of i_first i_of i_order] in *. destruct (m_of MAXID N s log J u) as [(i & m & I1 & I2 & I3)|(X & _)]; [|lia].
    apply In_nth_error in I1. destruct I1 as [j I1]. pose proof (numbered_nth _ _ _ _ _ A1 I1) as Ei. destruct (B2 _ _ _ I1) as [C1 _].
    assert (Hj : (j < length (inserted log))%nat) by (apply nth_error_Some; congruence).
    exists j, (mkIM (mv_node m) (Some (mv_from m)) (mv_to m)). split; [lia|]. split; [|exact I2].
    erewrite map_nth_error; [|rewrite nth_error_nth' with (d := 0%nat) by (rewrite seq_length; lia); rewrite seq_nth by lia; reflexivity].
    cbn [plus]. rewrite C1. reflexivity.
  - cbn [itr_of i_first]. destruct (m_first MAXID N s log J) as [_ X]. lia.
Qed.

Lemma nth_error_firstn_lt {A} (l : list A) : forall i j, (i < j)%nat -> nth_error (firstn j l) i = nth_error l i.
Proof. induction l as [|a l IH]; intros [|i] [|j] Hij; try lia; try reflexivity. cbn. apply IH. lia. Qed.

(** C60.  For every round and every set of rebalancing moves, whatever the order in which the parallel loops merge double
    moves: the interleaving succeeds (it never writes beyond the array of one entry per node), the new sequence meets the
    precondition of the rollback (each node moved at most once, from its block at the start of the round; consecutive ids),
    executing it ends in the rebalanced partition, moves of nodes that were not rebalanced keep their order, and before each
    of them every overloaded block has all its rebalancing moves behind it. *)
Theorem C60_interleaved_sequence : forall H k P0 t reb sched L init, wf_hg H -> (forall v, In v (nodes H) -> 0 <= nw H v) -> complete H P0 k ->
  round_ok H k P0 (view t) -> of_ok t -> i_first t + Z.of_nat (length (nodes H)) <= MAXID ->
  let P1 := prefix P0 (view t) (numMoves (view t)) in
  reb_ok H k P1 reb -> merge_sched k reb sched -> (forall p, (p < k)%nat -> init p = block_weight H P0 p) ->
  exists t', interleave (nw H) k L init t reb sched = Some t' /\
    round_ok H k P0 (view t') /\ of_ok t' /\ (length (i_order t') <= length (nodes H))%nat /\
    (forall v, prefix P0 (view t') (numMoves (view t')) v = rebalanced k P1 reb v) /\
    (forall keep, (forall m, keep m = true <-> valid m = true /\ ~ reb_node k reb (im_node m)) -> filter keep (i_order t') = filter keep (i_order t)) /\
    (forall j m, nth_error (i_order t') j = Some m -> valid m = true -> ~ reb_node k reb (im_node m) ->
       forall p, (p < k)%nat -> L p < block_weight H (prefix P0 (view t') j) p ->
       forall r, In r (reb p) -> exists i m', (i < j)%nat /\ nth_error (i_order t') i = Some m' /\ im_node m' = im_node r).
Proof.
  intros H k P0 t reb sched L init WF NWP HC RO OF HN P1 RB MS HI.
  destruct (interleave_ok H k P0 t reb sched L init WF NWP HC RO OF RB MS HI HN) as (t' & E & F & RO' & OF' & Pf & Pm & Im & Fo).
  assert (RN : forall u, rebb k reb u = false <-> ~ reb_node k reb u) by (intros u; unfold rebb, reb_node; apply mem_false).
  assert (VA : forall l, NoDup (map im_node l) -> forall m, In m (i_order t') -> ~ reb_node k reb (im_node m) -> valid m = true).
  { intros _ _ m I N. eapply Permutation_in in I; [|exact Pm]. apply (all_in k t reb) in I.
    destruct I as [(_ & V & _)|(r & I & ->)]; [exact V|]. exfalso. apply N. rewrite mg_node. apply in_map, I. }
  exists t'. split; [exact E|]. split; [exact RO'|]. split; [exact OF'|].
  assert (Nd : NoDup (map im_node (i_order t'))).
  { eapply Permutation_NoDup; [apply Permutation_map; symmetry; exact Pm|]. exact (all_nodup H k P0 t reb L init NWP RO RB HI). }
  split; [|split; [exact Pf|split]].
  - rewrite <- (map_length im_node). apply NoDup_incl_length; [exact Nd|]. intros u I. apply in_map_iff in I. destruct I as (m & <- & I).
    eapply Permutation_in in I; [|exact Pm]. apply (all_in k t reb) in I. destruct I as [(I & V & _)|(r & I & ->)].
    + unfold valid in V. destruct (im_from m) as [f|] eqn:Ef; [|discriminate]. apply In_nth_error in I. destruct I as [j I]. exact (proj1 (order_valid H k P0 t RO j m f I Ef)).
    + rewrite mg_node. exact (proj1 (mg_facts H k P0 t reb L init NWP RO RB HI r I)).
  - intros keep Hk. rewrite filter_and in Fo.
    assert (X1 : filter keep (i_order t') = filter (fun m => negb (rebb k reb (im_node m))) (i_order t')).
    { apply filter_ext_in. intros m I. apply eq_true_iff_eq. rewrite Hk, negb_true_iff, RN. split; [tauto|]. intros N. split; [|exact N]. exact (VA _ Nd m I N). }
    rewrite X1, Fo. apply filter_ext. intros m. apply eq_true_iff_eq. rewrite Hk, andb_true_iff, negb_true_iff, RN. reflexivity.
  - intros j m Ej V N p Hp Hw r Hr.
    assert (Es : i_order t' = firstn j (i_order t') ++ m :: skipn (S j) (i_order t')).
    { rewrite <- (firstn_skipn j (i_order t')) at 1. f_equal. apply skipn_nth, Ej. }
    pose proof (Im _ _ _ Es V (proj2 (negb_true_iff _) (proj2 (RN _) N)) p Hp) as X.
    unfold prefix in Hw. cbn [view t_order] in Hw. rewrite firstn_map, vm_view in Hw. specialize (X Hw (mg t r) (in_map _ _ _ Hr)).
    rewrite mg_node in X. apply in_map_iff in X. destruct X as (m' & E' & I). apply In_nth_error in I. destruct I as [i I].
    assert (Hi : (i < length (firstn j (i_order t')))%nat) by (apply nth_error_Some; congruence).
    rewrite firstn_length in Hi. exists i, m'. split; [lia|]. split; [|exact E']. rewrite <- I. symmetry. apply nth_error_firstn_lt. lia.
Qed.

(** The interleaved sequence and the rebalanced state are a legal input of the rollback theorems of C26-C28 ... *)
Theorem C60_ready_for_rollback : forall H k P0 t reb sched L init s, wf_hg H -> (forall v, In v (nodes H) -> 0 <= nw H v) -> complete H P0 k ->
  round_ok H k P0 (view t) -> of_ok t -> i_first t + Z.of_nat (length (nodes H)) <= MAXID ->
  let P1 := prefix P0 (view t) (numMoves (view t)) in
  reb_ok H k P1 reb -> merge_sched k reb sched -> (forall p, (p < k)%nat -> init p = block_weight H P0 p) ->
  pk s = k -> consistent H s -> (forall v, In v (nodes H) -> part s v = rebalanced k P1 reb v) ->
  exists t', interleave (nw H) k L init t reb sched = Some t' /\ after_round H k P0 (view t') s.
Proof.
  intros H k P0 t reb sched L init s WF NWP HC RO OF HN P1 RB MS HI K C Ep.
  destruct (C60_interleaved_sequence H k P0 t reb sched L init WF NWP HC RO OF HN RB MS HI) as (t' & E & RO' & _ & _ & Pf & _).
  exists t'. split; [exact E|]. constructor; auto. intros v Hv. rewrite (Ep v Hv). symmetry. apply Pf.
Qed.

(** ... hence the result of the round is never worse than the partition at the start (if that was balanced), and never
    worse than the rebalanced partition (if that is balanced), in any of the objectives. *)
Theorem C60_round_quality : forall H k P0 t reb sched L init t' obj improvement s', wf_hg H -> (forall v, In v (nodes H) -> 0 <= nw H v) -> complete H P0 k ->
  round_ok H k P0 (view t) -> of_ok t -> i_first t + Z.of_nat (length (nodes H)) <= MAXID ->
  let P1 := prefix P0 (view t) (numMoves (view t)) in
  reb_ok H k P1 reb -> merge_sched k reb sched -> (forall p, (p < k)%nat -> init p = block_weight H P0 p) ->
  interleave (nw H) k L init t reb sched = Some t' -> In obj [km1; cut; soed] ->
  round_result H k P0 (view t') L obj improvement s' ->
  obj H (part s') <= obj H P0 /\
  (balanced H P0 k L -> balanced H (part s') k L) /\
  (balanced H (rebalanced k P1 reb) k L -> obj H (part s') <= obj H (rebalanced k P1 reb)) /\
  (balanced H (rebalanced k P1 reb) k L -> obj H (rebalanced k P1 reb) < obj H P0 -> balanced H (part s') k L).
Proof.
  intros H k P0 t reb sched L init t' obj imp s' WF NWP HC RO OF HN P1 RB MS HI E Ho (R1 & R2 & R3 & R4 & R5 & _).
  destruct (C60_interleaved_sequence H k P0 t reb sched L init WF NWP HC RO OF HN RB MS HI) as (t2 & E2 & RO' & _ & _ & Pf & _).
  rewrite E in E2. injection E2 as <-.
  assert (Ext : forall P Q, (forall v, In v (nodes H) -> P v = Q v) -> obj H P = obj H Q).
  { intros P Q X. assert (Y : forall e v, In e (edges H) -> In v (pins H e) -> P v = Q v) by (intros e v He Hv; apply X, (wf_pins_nodes H WF e v He Hv)).
    destruct Ho as [<-|[<-|[<-|[]]]]; apply sumZ_ext; intros e He; [apply km1_edge_ext|apply cut_edge_ext|apply soed_edge_ext]; intros v Hv; exact (Y e v He Hv). }
  assert (R5' : balanced H (rebalanced k P1 reb) k L -> obj H (part s') <= obj H (rebalanced k P1 reb)).
  { intros B. rewrite <- (Ext (prefix P0 (view t') (numMoves (view t'))) (rebalanced k P1 reb) (fun v _ => Pf v)). apply R5; [lia|].
    eapply balanced_ext; [|exact B]. intros v _. symmetry. apply Pf. }
  split; [lia|]. split; [exact R4|]. split; [exact R5'|].
  intros B Lt. specialize (R5' B). destruct R1 as (j & Hj & Ej & [->|X]); [|exact X].
  rewrite (Ext (part s') P0) in R5'; [lia|]. intros v Hv. rewrite (Ej v Hv). reflexivity.
Qed.

(** Non-vacuity: three moves in the round; the rebalancer moves node 3 a second time (merged), undoes the move of node 2
    (deleted) and moves node 0 (new). *)
Definition ex_P : partition := fun v => match v with 0 | 1 => Some 0 | _ => Some 1 end%nat.
Definition ex_it : itr := mkI 9 [mkIM 2 (Some 1) 0; mkIM 1 (Some 0) 1; mkIM 3 (Some 1) 0]%nat (fun v => match v with 2%nat => 9 | 1%nat => 10 | 3%nat => 11 | _ => 4 end).
Definition ex_reb : nat -> list imove := fun p => match p with 0 => [mkIM 3 (Some 0) 2; mkIM 2 (Some 0) 1; mkIM 0 (Some 0) 2] | _ => [] end%nat.
Definition ex_L : nat -> Z := fun p => match p with 0%nat => 2 | _ => 4 end.
Definition ex_sched : list (nat * nat) := [(0, 2); (0, 0); (0, 1)]%nat.
Definition ex_initw : nat -> Z := fun p => block_weight exH ex_P p.
Lemma ex_hyps : wf_hg exH /\ (forall v, In v (nodes exH) -> 0 <= nw exH v) /\ complete exH ex_P 3 /\
  round_ok exH 3 ex_P (view ex_it) /\ of_ok ex_it /\ i_first ex_it + Z.of_nat (length (nodes exH)) <= MAXID /\
  reb_ok exH 3 (prefix ex_P (view ex_it) (numMoves (view ex_it))) ex_reb /\ merge_sched 3 ex_reb ex_sched /\
  (forall p, (p < 3)%nat -> ex_initw p = block_weight exH ex_P p).
Proof.
  split; [exact exH_wf|]. split; [intros v Hv; cbn in Hv; destruct Hv as [<-|[<-|[<-|[<-|[]]]]]; cbn; lia|].
  split; [intros v Hv; cbn in Hv; destruct Hv as [<-|[<-|[<-|[<-|[]]]]]; cbn; eexists; split; try reflexivity; lia|].
  split.
  { constructor.
    - cbn. lia.
    - vm_compute. discriminate.
    - intros i m E. destruct i as [|[|[|i]]]; cbn in E; [injection E as <-; cbn; repeat apply conj; try reflexivity; [tauto|discriminate|lia]..|destruct i; discriminate E].
    - intros u id m E. destruct u as [|[|[|[|u]]]]; vm_compute in E; try discriminate E; injection E as _ <-; reflexivity. }
  split.
  { intros u Hu. destruct u as [|[|[|[|u]]]]; cbn in Hu; try lia.
    - exists 1%nat. eexists. split; [|split]; reflexivity.
    - exists 0%nat. eexists. split; [|split]; reflexivity.
    - exists 2%nat. eexists. split; [|split]; reflexivity. }
  split; [vm_compute; discriminate|]. split.
  { constructor.
    - intros p m Hp I. destruct p as [|p]; [|destruct I]. cbn in I. destruct I as [<-|[<-|[<-|[]]]]; vm_compute; repeat apply conj; try reflexivity; try discriminate; try tauto; lia.
    - cbn. repeat constructor; cbn; intuition discriminate. }
  split; [|reflexivity]. split; [repeat constructor; cbn; intuition discriminate|].
  intros p i. split.
  - intros [E|[E|[E|[]]]]; injection E as <- <-; cbn; lia.
  - intros [Hp Hi]. destruct p as [|[|[|p]]]; cbn in Hi; try lia. destruct i as [|[|[|i]]]; cbn; try lia; tauto.
Qed.
Example ex_interleave : option_map (fun t => (i_order t, map (i_of t) [0;1;2;3]%nat)) (interleave (nw exH) 3 ex_L ex_initw ex_it ex_reb ex_sched) =
  Some ([mkIM 3 (Some 1) 2; mkIM 2 None 1; mkIM 0 (Some 0) 2; mkIM 1 (Some 0) 1]%nat, [11; 12; 0; 9]).
Proof. vm_compute. reflexivity. Qed.
