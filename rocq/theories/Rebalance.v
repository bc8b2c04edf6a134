(** Rebalance.v - the parallel rebalancer: mt-kahypar/partition/refinement/rebalancing/advanced_rebalancer.cpp:139-500 and
    advanced_rebalancer.h:38-75 (NodeState).  Any number of threads; every access to a node state, to a block weight, to the
    overload flags, to the move counter, and every step of changeNodePart (Conc.v) is one step of the interleaving.

    Simplifications: the priority queues only decide WHICH node is tried next and computeBestTargetBlock only decides WHICH
    target block is proposed; both are arbitrary here (the block weight test that matters is made again by changeNodePart).
    Sequentially consistent memory.  `if (is_overloaded) CAS` of deactivateOverloadedBlock is one step. *)
From Verif Require Import Base Spec SpecLemmas WfCheck PHG PHGProofs Objective GainCache GainCacheProofs Conc ConcProofs ConcMore ConcRun PropsA Rollback Interleave.

(** Program counter of a task of findMoves (:315-425).  A move [m : mv] carries max_part_weights[m.to] as [m_max]. *)
Inductive rpc :=
| RTop                                          (* about to test num_overloaded_blocks > 0 (:331) *)
| RFind                                         (* inside findNextMove (:226-270) *)
| RCand (u : nat)                               (* checkCandidate after a successful tryLock (:178) *)
| RNext (m : mv)                                (* findNextMove returned true with next_move = m (:181-186) *)
| RMarked (m : mv) (from : nat)                 (* after markAsMovedAndUnlock (:335); from = partID(m.node) read at :334 *)
| RDeact (from : nat)                           (* partWeight(from) <= max (:337): inside deactivateOverloadedBlock (:276) *)
| RSub                                          (* CAS succeeded: before fetch_sub (:280) *)
| RCall (m : mv)                                (* before changeNodePart (:344) *)
| RIn (m : mv) (id : option nat)                (* inside changeNodePart; id = result of the fetch_add at :347, if done *)
| RUpd (m : mv) (id : nat) (locked : list nat)  (* move succeeded: neighbour updates (:361-414) *)
| REnd.                                         (* task finished *)

Record rst := mkR {
  rc : cst;                 (* partition, gain cache and the changeNodePart calls in progress *)
  ns : nat -> nat;          (* _node_state: 0 = unset, 1 = movable, 2 = locked, 3 = moved *)
  pcs : nat -> rpc;         (* tasks 0..n-1 *)
  gid : nat;                (* global_move_id *)
  mvs : list (nat * mv);    (* writes to _moves, newest first *)
  ov : nat -> bool;         (* _is_overloaded *)
  nov : Z                   (* num_overloaded_blocks *)
}.

(** Scheduling: which task moves, and what its priority queue / gain computations decide. *)
Inductive act :=
| ATry (u : nat)      (* tryLock of the top of some priority queue *)
| AEmpty              (* all priority queues are empty: findNextMove returns false *)
| AKeep (to : nat)    (* computeBestTargetBlock proposes [to] and the gain is still good *)
| ADrop               (* ... otherwise: unlock *)
| ANeigh (v : nat)    (* update_neighbor(v): tryLock *)
| ARelease (v : nat)  (* unlock of an updated neighbour *)
| AGo.                (* the only possible next access *)

Definition set_pc (st : rst) (i : nat) (p : rpc) : rst := mkR (rc st) (ns st) (upd (pcs st) i p) (gid st) (mvs st) (ov st) (nov st).
Definition set_ns (st : rst) (u x : nat) : rst := mkR (rc st) (upd (ns st) u x) (pcs st) (gid st) (mvs st) (ov st) (nov st).
Definition set_rc (st : rst) (c : cst) : rst := mkR c (ns st) (pcs st) (gid st) (mvs st) (ov st) (nov st).
Definition is_idle (t : tst) : bool := match t with Idle => true | _ => false end.
Definition in_edges (t : tst) : bool := match t with Edges _ _ => true | _ => false end.
Definition dflt (id : option nat) : nat := match id with Some j => j | None => 0%nat end.   (* size_t move_id = 0 (:343) *)

Section Sem.
Variables (H : hypergraph) (k n : nat) (mops : hypergraph -> sync_update -> list mop) (L : nat -> Z).

Definition rstep (st : rst) (la : nat * act) : option rst :=
  let '(i, a) := la in
  if (i <? n)%nat then
    match pcs st i, a with
    | RTop, AGo => Some (set_pc st i (if 0 <? nov st then RFind else REnd))
    | RFind, AEmpty => Some (set_pc st i REnd)
    | RFind, ATry u => if Nat.eqb (ns st u) 1 then Some (set_pc (set_ns st u 2) i (RCand u)) else Some st
    | RCand u, ADrop => Some (set_pc (set_ns st u 1) i RFind)
    | RCand u, AKeep to =>
      match part (sh (rc st)) u with
      | Some from => if (to <? k)%nat && negb (Nat.eqb to from) then Some (set_pc st i (RNext (mkMv u from to (L to)))) else None
      | None => None
      end
    | RNext m, AGo =>
      match part (sh (rc st)) (m_u m) with
      | Some from => Some (set_pc (set_ns st (m_u m) 3) i (RMarked m from))
      | None => None
      end
    | RMarked m from, AGo => Some (set_pc st i (if wt (sh (rc st)) from <=? L from then RDeact from else RCall m))
    | RDeact b, AGo =>
      if ov st b then Some (mkR (rc st) (ns st) (upd (pcs st) i RSub) (gid st) (mvs st) (upd (ov st) b false) (nov st))
      else Some (set_pc st i RTop)
    | RSub, AGo => Some (mkR (rc st) (ns st) (upd (pcs st) i RTop) (gid st) (mvs st) (ov st) (nov st - 1))
    | RCall m, AGo =>
      match cstep H n mops (rc st) (Begin i m) with
      | Some c => Some (set_pc (set_rc st c) i (RIn m None))
      | None => None
      end
    | RIn m id, AGo =>
      if in_edges (th (rc st) i) && (match id with None => true | Some _ => false end)
      then Some (mkR (rc st) (ns st) (upd (pcs st) i (RIn m (Some (gid st)))) (S (gid st)) (mvs st) (ov st) (nov st))
      else match cstep H n mops (rc st) (Adv i) with
           | Some c => Some (set_pc (set_rc st c) i
                         (if is_idle (th c i) then (match rep c with (_, true) :: _ => RUpd m (dflt id) [] | _ => RTop end) else RIn m id))
           | None => None
           end
    | RUpd m id l, ANeigh v =>
      if negb (Nat.eqb v (m_u m)) && Nat.eqb (ns st v) 1 then Some (set_pc (set_ns st v 2) i (RUpd m id (v :: l))) else Some st
    | RUpd m id l, ARelease v => if mem v l then Some (set_pc (set_ns st v 1) i (RUpd m id (remove Nat.eq_dec v l))) else None
    | RUpd m id [], AGo => Some (mkR (rc st) (ns st) (upd (pcs st) i RTop) (gid st) ((id, m) :: mvs st) (ov st) (nov st))
    | _, _ => None
    end
  else None.
Definition rrun (st : rst) (l : list (nat * act)) : option rst := fold_opt rstep st l.

(** refineInternalParallel :431-443 and insertNodesInOverloadedBlocks :274-320: overload flags from the block weights; the
    movable nodes are the non-fixed nodes of overloaded blocks for which some target block was found ([found]). *)
Definition over (s : phg) (b : nat) : bool := (b <? pk s)%nat && (L b <? wt s b).
Definition rinit (s : phg) (c : cache) (fixed found : nat -> bool) : rst :=
  mkR (cinit s c)
      (fun u => if mem u (nodes H) && negb (fixed u) && match part s u with Some b => over s b | None => false end && found u then 1 else 0)%nat
      (fun _ => RTop) 0 [] (over s) (Z.of_nat (length (filter (over s) (seq 0 (pk s))))).

(** All tasks have finished (tg.wait(), :425). *)
Definition joined (st : rst) : Prop := forall i, (i < n)%nat -> pcs st i = REnd.
(** moves_linear and moves_by_part, :454-467: the first num_moves_performed entries of _moves. *)
Definition entry (st : rst) (j : nat) : option mv := option_map snd (find (fun x => Nat.eqb (fst x) j) (mvs st)).
Definition moves_linear (st : rst) : list mv := flat_map (fun j => match entry st j with Some m => [m] | None => [] end) (seq 0 (gid st)).
Definition imv (m : mv) : imove := mkIM (m_u m) (Some (m_from m)) (m_to m).
Definition moves_by_part (st : rst) (p : nat) : list imove := map imv (filter (fun m => Nat.eqb (m_from m) p) (moves_linear st)).
(** best_metric.quality += attributed_gain (:469) for attributed gain function [g]; the returned value (:472-488). *)
Definition gain_sum (g : sync_update -> Z) (st : rst) : Z := sumZ g (log (rc st)).
Definition returned (st : rst) : bool := forallb (fun b => wt (sh (rc st)) b <=? L b) (seq 0 k).
(** recomputeInvalidTerms for the nodes of all performed moves (:447-451). *)
Definition recomputed (G : gain_policy) (st : rst) : cache := repaired G H (sh (rc st)) (gc (rc st)) (map m_u (moves_linear st)).
End Sem.

(** ---- invariants ---- *)
Definition own (p : rpc) : list nat :=
  match p with
  | RCand u => [u]
  | RNext m | RMarked m _ | RCall m | RIn m _ => [m_u m]
  | RUpd m _ l => m_u m :: l
  | _ => []
  end.
Definition lockedl (p : rpc) : list nat := match p with RCand u => [u] | RNext m => [m_u m] | RUpd _ _ l => l | _ => [] end.
Definition movedl (p : rpc) : list nat := match p with RMarked m _ | RCall m | RIn m _ | RUpd m _ _ => [m_u m] | _ => [] end.
Definition mvl (p : rpc) : list mv := match p with RNext m | RMarked m _ | RCall m | RIn m _ | RUpd m _ _ => [m] | _ => [] end.
Definition idl (p : rpc) : list nat := match p with RIn _ (Some j) => [j] | RUpd _ j _ => [j] | _ => [] end.
Definition upl (p : rpc) : list mv := match p with RUpd m _ _ => [m] | _ => [] end.
Definition subl (p : rpc) : list nat := match p with RSub => [0%nat] | _ => [] end.
Definition accepted (r : list (mv * bool)) : list mv := map fst (filter snd r).

Lemma flat_map_ext_in {A B} (f g : A -> list B) l : (forall x, In x l -> f x = g x) -> flat_map f l = flat_map g l.
Proof. induction l as [|a l IH]; intros E; cbn; [reflexivity|]. rewrite (E a (or_introl eq_refl)), IH; [reflexivity|]. intros x Hx. apply E. right. exact Hx. Qed.
Lemma flat_upd {B} (F : rpc -> list B) (f : nat -> rpc) i n : (i < n)%nat -> exists rest,
  Permutation (flat_map (fun j => F (f j)) (seq 0 n)) (F (f i) ++ rest) /\
  forall x, Permutation (flat_map (fun j => F (upd f i x j)) (seq 0 n)) (F x ++ rest).
Proof.
  intros Hi. exists (flat_map (fun j => F (f j)) (seq 0 i ++ seq (S i) (n - S i))).
  assert (S : seq 0 n = seq 0 i ++ i :: seq (S i) (n - S i)).
  { replace n with (i + S (n - S i))%nat at 1 by lia. rewrite seq_app. reflexivity. }
  assert (G : forall x, Permutation (flat_map (fun j => F (upd f i x j)) (seq 0 n)) (F x ++ flat_map (fun j => F (f j)) (seq 0 i ++ seq (Datatypes.S i) (n - Datatypes.S i)))).
  { intros x. rewrite S, !flat_map_app. cbn [flat_map]. rewrite upd_same.
    rewrite (flat_map_ext_in (fun j => F (upd f i x j)) (fun j => F (f j)) (seq 0 i)).
    2:{ intros j Hj. apply in_seq in Hj. rewrite upd_other by lia. reflexivity. }
    rewrite (flat_map_ext_in (fun j => F (upd f i x j)) (fun j => F (f j)) (seq (Datatypes.S i) _)).
    2:{ intros j Hj. apply in_seq in Hj. rewrite upd_other by lia. reflexivity. }
    apply Permutation_app_swap_app. }
  split; [|exact G]. specialize (G (f i)). rewrite <- G. apply Permutation_refl'. apply flat_map_ext_in.
  intros j _. unfold upd. destruct (Nat.eqb_spec j i) as [E|Ne]; [rewrite E|]; reflexivity.
Qed.
Lemma in_flat_own {B} (F : rpc -> list B) (f : nat -> rpc) n x : In x (flat_map (fun j => F (f j)) (seq 0 n)) <-> exists j, (j < n)%nat /\ In x (F (f j)).
Proof. rewrite in_flat_map. split; intros (j & A & B0); exists j; (split; [|exact B0]); apply in_seq in A || apply in_seq; lia. Qed.
Lemma NoDup_app_r {A} (l1 l2 : list A) : NoDup (l1 ++ l2) -> NoDup l2.
Proof. induction l1 as [|a l IH]; cbn; [tauto|]. intros N. apply NoDup_cons_iff in N. tauto. Qed.
Lemma NoDup_app_l {A} (l1 l2 : list A) : NoDup (l1 ++ l2) -> NoDup l1.
Proof. induction l1 as [|a l IH]; cbn; [constructor|]. intros N. apply NoDup_cons_iff in N. destruct N as [Na N]. constructor; [|apply IH, N]. intros I. apply Na, in_or_app. left. exact I. Qed.
Lemma own_split p : Permutation (own p) (lockedl p ++ movedl p).
Proof. destruct p; cbn; try reflexivity. rewrite <- Permutation_cons_append. reflexivity. Qed.

Section Proofs.
Variables (H : hypergraph) (k n : nat) (mops : hypergraph -> sync_update -> list mop) (L : nat -> Z) (s0 : phg) (c0 : cache) (fixed found : nat -> bool).
Hypothesis WF : wf_hg H.
Hypothesis C0 : consistent H s0.
Hypothesis HC0 : complete H (part s0) (pk s0).
Hypothesis Hk : pk s0 = k.
Hypothesis Hnw : forall v, In v (nodes H) -> 0 <= nw H v.
Notation P0 := (part s0).
Notation init := (rinit H L s0 c0 fixed found).

Definition cur (c : cst) (b : nat) : Z := block_weight H (part (sh c)) b + sumZ (fun i => committed H (th c i) b) (seq 0 n).
Definition elig (u : nat) : Prop := In u (nodes H) /\ fixed u = false /\ exists b, P0 u = Some b /\ (b < k)%nat /\ L b < block_weight H P0 b.

(** A move the tasks may be working on. *)
Definition good_mv (m : mv) : Prop := P0 (m_u m) = Some (m_from m) /\ m_from m <> m_to m /\ (m_to m < k)%nat /\ m_max m = L (m_to m) /\ elig (m_u m).

Record RInv (st : rst) : Prop := {
  r_base : exists eff, Base H k n (rc st) eff;
  r_max : forall i m, (i < n)%nat -> mv_of (th (rc st) i) = Some m -> m_max m <= L (m_to m);
  r_th : forall i, (i < n)%nat -> match pcs st i with
           | RIn m id => mv_of (th (rc st) i) = Some m /\ match id with
                          | None => match th (rc st) i with Added _ _ | Stored _ => True | Edges _ r => r = inc H (m_u m) | _ => False end
                          | Some _ => match th (rc st) i with Idle | Added _ _ | Stored _ => False | _ => True end end
           | _ => th (rc st) i = Idle end;
  r_own : NoDup (map (fun x => m_u (snd x)) (mvs st) ++ flat_map (fun j => own (pcs st j)) (seq 0 n));
  r_ns2 : forall i u, (i < n)%nat -> In u (lockedl (pcs st i)) -> ns st u = 2%nat;
  r_ns3 : forall i u, (i < n)%nat -> In u (movedl (pcs st i)) -> ns st u = 3%nat;
  r_mv3 : forall x, In x (mvs st) -> ns st (m_u (snd x)) = 3%nat;
  r_elig : forall u, ns st u <> 0%nat -> elig u;
  r_part : forall u, ns st u <> 3%nat -> part (sh (rc st)) u = P0 u;
  r_good : forall i m, (i < n)%nat -> In m (mvl (pcs st i)) -> good_mv m;
  r_goodm : forall x, In x (mvs st) -> good_mv (snd x);
  r_cur : forall i m, (i < n)%nat -> pcs st i = RCall m \/ (exists b, pcs st i = RMarked m b) -> part (sh (rc st)) (m_u m) = P0 (m_u m);
  r_from : forall i m b, (i < n)%nat -> pcs st i = RMarked m b -> b = m_from m;
  r_ids : Permutation (map fst (mvs st) ++ flat_map (fun j => idl (pcs st j)) (seq 0 n)) (seq 0 (gid st));
  r_acc : Permutation (map snd (mvs st) ++ flat_map (fun j => upl (pcs st j)) (seq 0 n)) (accepted (rep (rc st)));
  r_nov : nov st = Z.of_nat (length (filter (ov st) (seq 0 k))) + Z.of_nat (length (flat_map (fun j => subl (pcs st j)) (seq 0 n)));
  r_set : forall b, (b < k)%nat -> ov st b = false -> cur (rc st) b <= L b;
  r_deact : forall i b, (i < n)%nat -> pcs st i = RDeact b -> (b < k)%nat /\ cur (rc st) b <= L b
}.

Lemma cur_nonneg c eff b : Base H k n c eff -> 0 <= cur c b.
Proof using All.
  intros B. unfold cur. assert (0 <= block_weight H (part (sh c)) b).
  { apply sumZ_nonneg. intros v Hv. apply filter_In in Hv. apply Hnw, Hv. }
  assert (0 <= sumZ (fun i => committed H (th c i) b) (seq 0 n)); [|lia].
  apply sumZ_nonneg. intros i Hi. apply in_seq in Hi. destruct (th c i) as [|m a| | | | | |] eqn:Ei; cbn [committed]; try lia.
  assert (Em : mv_of (th c i) = Some m) by (rewrite Ei; reflexivity).
  destruct (b_mv H k n c eff B i m ltac:(lia) Em) as (M & _). specialize (Hnw _ M). destruct (_ && _); lia.
Qed.

(** One step of the concurrent moves never raises the committed weight of a block above max(L, what it was). *)
Lemma cur_step c eff l c' : Base H k n c eff -> (forall i m, (i < n)%nat -> mv_of (th c i) = Some m -> m_max m <= L (m_to m)) ->
  label_ok L l -> cstep H n mops c l = Some c' ->
  (forall i m, (i < n)%nat -> mv_of (th c' i) = Some m -> m_max m <= L (m_to m)) /\
  forall b, (b < k)%nat -> cur c' b <= Z.max (L b) (cur c b).
Proof using All.
  intros B M Hl E.
  assert (Z0 : forall b, block_weight H (fun _ => None) b = 0) by (intros b; apply sumZ_zero; intros x Hx; apply filter_In in Hx; destruct Hx as [_ Hx]; discriminate Hx).
  split.
  - intros i m Hi Em. destruct (step_tr H n mops c l c' eff E) as (i0 & t & Hi0 & Et & T). rewrite Et in Em. unfold upd in Em.
    destruct (Nat.eqb_spec i i0) as [Ei|Ne]; [|exact (M i m Hi Em)].
    destruct l as [i1 m1|i1].
    + cbn [cstep] in E. destruct (th c i1) eqn:Ei1; try discriminate E. destruct (_ && _) in E; [|discriminate E]. injection E as E.
      assert (Q : upd (th c) i1 (Added m1 (wt (add_wt (sh c) (m_to m1) (nw H (m_u m1))) (m_to m1))) i0 = t).
      { assert (Q0 : th c' i0 = t) by (rewrite Et; apply upd_same). rewrite <- Q0, <- E. reflexivity. }
      unfold upd in Q. destruct (Nat.eqb_spec i0 i1) as [E1|E1].
      * rewrite <- Q in Em. cbn in Em. injection Em as <-. exact Hl.
      * rewrite <- Q in Em. eapply M; eauto.
    + destruct T as [m0 ef st' E0|m0 a ef st' E0|m0 a ef st' E0|m0 ef st' E0|m0 ef st' E0|m0 e rem ef st' E0|m0 e rem ef s' fa st' E0|m0 e rem fa ef s' ta st' E0|m0 rem su ef st' E0|m0 rem ef st' E0|m0 rem o ops c1 ops' ef st' E0];
        cbn in Em; try discriminate Em; try (injection Em as <-; eapply (M i0); [exact Hi0|rewrite E0; reflexivity]).
      exfalso. cbn [cstep] in E. destruct (i1 <? n)%nat; [|discriminate E].
      assert (Ne : i1 <> i0) by (intros ->; unfold adv in E; rewrite E0 in E; discriminate E).
      assert (Q0 : th st' i0 = Added m0 (wt (sh c) (m_to m0) + nw H (m_u m0))) by (rewrite Et; apply upd_same).
      assert (Q1 : th st' i0 = th c i0).
      { unfold adv in E. destruct (th c i1) as [|m1 a|m1|m1 rem|m1 e rem|m1 e rem fa|m1 rem su|m1 rem ops]; try discriminate E.
        - destruct (_ <=? _); injection E as <-; cbn; apply upd_other; congruence.
        - injection E as <-; cbn; apply upd_other; congruence.
        - destruct rem; [|destruct (lk c n0); [discriminate E|]]; injection E as <-; cbn; apply upd_other; congruence.
        - destruct (decrementPinCountOfBlock _ _ _) as [[? ?]|]; [|discriminate E]. injection E as <-; cbn; apply upd_other; congruence.
        - destruct (incrementPinCountOfBlock _ _ _) as [[? ?]|]; [|discriminate E]. injection E as <-; cbn; apply upd_other; congruence.
        - injection E as <-; cbn; apply upd_other; congruence.
        - destruct ops; [|destruct (exec_mop _ _ _ _)]; injection E as <-; cbn; apply upd_other; congruence. }
      rewrite Q0, E0 in Q1. discriminate Q1.
  - set (L' := fun b => Z.max (L b) (cur c b)). intros b Hb.
    assert (BI : BalInv H k n L' (fun _ => None) c).
    { split.
      - intros i m Hi Em. unfold L'. specialize (M i m Hi Em). lia.
      - intros b0 Hb0. rewrite Z0. fold (cur c b0). unfold L'. lia. }
    assert (Hl' : label_ok L' l) by (destruct l; cbn in *; unfold L'; [lia|exact I]).
    destruct (bal_step H k n mops WF L' Hnw (fun _ => None) c l c' eff B BI Hl' E) as [_ R].
    specialize (R b Hb). rewrite Z0 in R. fold (cur c' b) in R. unfold L' in R. pose proof (cur_nonneg c eff b B). lia.
Qed.

Lemma adv_facts c i m c' : (i < n)%nat -> mv_of (th c i) = Some m -> cstep H n mops c (Adv i) = Some c' ->
  exists t, th c' = upd (th c) i t /\ (forall v, v <> m_u m -> part (sh c') v = part (sh c) v) /\
    match th c i with
    | Idle => False
    | Added _ _ => t = Stored m /\ rep c' = rep c \/ t = Idle /\ rep c' = (m, false) :: rep c
    | Stored _ => t = Edges m (inc H (m_u m)) /\ rep c' = rep c
    | _ => t = Idle /\ rep c' = (m, true) :: rep c \/
           mv_of t = Some m /\ rep c' = rep c /\ match t with Idle | Added _ _ | Stored _ => False | _ => True end
    end.
Proof using All.
  intros Hi Em E. cbn [cstep] in E. destruct (Nat.ltb_spec i n); [|lia]. unfold adv in E.
  destruct (th c i) as [|m1 a|m1|m1 rem|m1 e rem|m1 e rem fa|m1 rem su|m1 rem ops] eqn:Ei; try discriminate Em; cbn in Em; injection Em as ->.
  - destruct (a <=? m_max m); injection E as <-; eexists; (split; [reflexivity|]).
    + split; [intros v Hv; cbn; apply upd_other; exact Hv|]. left. split; reflexivity.
    + split; [intros v Hv; reflexivity|]. right. split; reflexivity.
  - injection E as <-. eexists. split; [reflexivity|]. split; [intros v Hv; reflexivity|]. split; reflexivity.
  - destruct rem as [|e rem].
    + injection E as <-. eexists. split; [reflexivity|]. split; [intros v Hv; reflexivity|]. left. split; reflexivity.
    + destruct (lk c e); [discriminate E|]. injection E as <-. eexists. split; [reflexivity|]. split; [intros v Hv; reflexivity|]. right. repeat split.
  - unfold decrementPinCountOfBlock in E. destruct (_ && _) in E; [|discriminate E]. injection E as <-. eexists. split; [reflexivity|].
    split; [intros v Hv; cbn; destruct (_ =? _); reflexivity|]. right. repeat split.
  - unfold incrementPinCountOfBlock in E. destruct (_ <? _)%nat in E; [|discriminate E]. injection E as <-. eexists. split; [reflexivity|].
    split; [intros v Hv; cbn; destruct (_ =? _); reflexivity|]. right. repeat split.
  - injection E as <-. eexists. split; [reflexivity|]. split; [intros v Hv; reflexivity|]. right. repeat split.
  - destruct ops as [|o ops].
    + injection E as <-. eexists. split; [reflexivity|]. split; [intros v Hv; reflexivity|]. right. repeat split.
    + destruct (exec_mop (part (sh c)) (gc c) o ops) as [c1 ops']. injection E as <-. eexists. split; [reflexivity|].
      split; [intros v Hv; reflexivity|]. right. repeat split.
Qed.

Lemma own_in st i u : RInv st -> (i < n)%nat -> In u (own (pcs st i)) -> ns st u = 2%nat \/ ns st u = 3%nat.
Proof using All.
  intros R Hi I. apply (Permutation_in _ (own_split _)) in I. apply in_app_or in I.
  destruct I as [I|I]; [left; eapply r_ns2|right; eapply r_ns3]; eauto.
Qed.
Lemma own_disj st i j u : RInv st -> (i < n)%nat -> (j < n)%nat -> i <> j -> In u (own (pcs st i)) -> In u (own (pcs st j)) -> False.
Proof using All.
  intros R Hi Hj Ne Ii Ij. destruct (flat_upd own (pcs st) i n Hi) as (rest & P & Q).
  pose proof (r_own st R) as ND. rewrite P in ND. apply NoDup_app_r in ND.
  assert (X : In u rest).
  { specialize (Q RTop). cbn [own app] in Q. eapply Permutation_in; [exact Q|]. apply in_flat_own. exists j. split; [exact Hj|].
    rewrite upd_other by congruence. exact Ij. }
  apply in_split in Ii. destruct Ii as (a & b & E). rewrite E in ND. rewrite <- app_assoc in ND. apply NoDup_app_r in ND.
  cbn in ND. apply NoDup_cons_iff in ND. apply ND. apply in_or_app. right. exact X.
Qed.
Lemma own_mvs st i x : RInv st -> (i < n)%nat -> In x (mvs st) -> In (m_u (snd x)) (own (pcs st i)) -> False.
Proof using All.
  intros R Hi I Ii. pose proof (r_own st R) as ND.
  assert (J : In (m_u (snd x)) (flat_map (fun j => own (pcs st j)) (seq 0 n))) by (apply in_flat_own; eauto).
  assert (I' : In (m_u (snd x)) (map (fun x => m_u (snd x)) (mvs st))) by (apply (in_map (fun x => m_u (snd x))); exact I).
  apply in_split in I'. destruct I' as (a & b & E). rewrite E, <- app_assoc in ND. apply NoDup_app_r in ND. cbn in ND.
  apply NoDup_cons_iff in ND. apply ND. apply in_or_app. right. exact J.
Qed.

(** A step of task [i] that satisfies these local conditions preserves the invariant. *)
Lemma local_step st st' i p : RInv st -> (i < n)%nat -> pcs st' = upd (pcs st) i p ->
  (exists eff, Base H k n (rc st') eff) ->
  (forall j m, (j < n)%nat -> mv_of (th (rc st') j) = Some m -> m_max m <= L (m_to m)) ->
  (forall j, j <> i -> th (rc st') j = th (rc st) j) ->
  match p with
  | RIn m id => mv_of (th (rc st') i) = Some m /\ match id with
                 | None => match th (rc st') i with Added _ _ | Stored _ => True | Edges _ r => r = inc H (m_u m) | _ => False end
                 | Some _ => match th (rc st') i with Idle | Added _ _ | Stored _ => False | _ => True end end
  | _ => th (rc st') i = Idle end ->
  (forall rest, NoDup (map (fun x => m_u (snd x)) (mvs st) ++ own (pcs st i) ++ rest) ->
     (forall u, In u (map (fun x => m_u (snd x)) (mvs st) ++ own (pcs st i) ++ rest) -> ns st u <> 1%nat) ->
     NoDup (map (fun x => m_u (snd x)) (mvs st') ++ own p ++ rest)) ->
  (forall u, ns st' u <> ns st u -> ns st u = 1%nat \/ In u (own (pcs st i))) ->
  (forall u, In u (lockedl p) -> ns st' u = 2%nat) -> (forall u, In u (movedl p) -> ns st' u = 3%nat) ->
  (forall x, In x (mvs st') -> In x (mvs st) \/ ns st' (m_u (snd x)) = 3%nat /\ good_mv (snd x)) ->
  (forall u, ns st' u <> 0%nat -> ns st u <> 0%nat) ->
  (forall u, ns st' u <> 3%nat -> ns st u <> 3%nat) ->
  (forall u, ~ In u (movedl (pcs st i)) -> part (sh (rc st')) u = part (sh (rc st)) u) ->
  (forall m, In m (mvl p) -> good_mv m) ->
  (forall m, p = RCall m \/ (exists b, p = RMarked m b) -> part (sh (rc st')) (m_u m) = P0 (m_u m)) ->
  (forall m b, p = RMarked m b -> b = m_from m) ->
  (forall rest, Permutation (map fst (mvs st) ++ idl (pcs st i) ++ rest) (seq 0 (gid st)) -> Permutation (map fst (mvs st') ++ idl p ++ rest) (seq 0 (gid st'))) ->
  (forall rest, Permutation (map snd (mvs st) ++ upl (pcs st i) ++ rest) (accepted (rep (rc st))) -> Permutation (map snd (mvs st') ++ upl p ++ rest) (accepted (rep (rc st')))) ->
  nov st' - Z.of_nat (length (filter (ov st') (seq 0 k))) - Z.of_nat (length (subl p)) =
    nov st - Z.of_nat (length (filter (ov st) (seq 0 k))) - Z.of_nat (length (subl (pcs st i))) ->
  (forall b, (b < k)%nat -> cur (rc st) b <= L b -> cur (rc st') b <= L b) ->
  (forall b, (b < k)%nat -> ov st' b = false -> ov st b = false \/ pcs st i = RDeact b) ->
  (forall b, p = RDeact b -> (b < k)%nat /\ cur (rc st') b <= L b) ->
  RInv st'.
Proof using All.
  intros R Hi Ep HB HM Hth Hthi Hown Hns Hl2 Hm3 Hmv He H3 Hpart Hgood Hcur Hfrom Hids Hacc Hnov Hmono Hov Hde.
  assert (Keep : forall u, ns st u <> 1%nat -> ~ In u (own (pcs st i)) -> ns st' u = ns st u).
  { intros u A B. destruct (Nat.eq_dec (ns st' u) (ns st u)) as [E|E]; [exact E|]. destruct (Hns u E); tauto. }
  assert (Case : forall j, pcs st' j = (if Nat.eqb j i then p else pcs st j)) by (intros j; rewrite Ep; reflexivity).
  constructor; try assumption.
  - intros j Hj. rewrite Case. destruct (Nat.eqb_spec j i) as [->|Ne]; [exact Hthi|]. rewrite (Hth j Ne). apply (r_th st R j Hj).
  - rewrite Ep. destruct (flat_upd own (pcs st) i n Hi) as (rest & P & Q). rewrite (Q p). apply Hown.
    + rewrite <- P. apply (r_own st R).
    + intros u I. apply in_app_or in I. destruct I as [I|I].
      * apply in_map_iff in I. destruct I as (x & <- & I). rewrite (r_mv3 st R x I). discriminate.
      * apply (Permutation_in _ (Permutation_sym P)) in I. apply in_flat_own in I. destruct I as (j & Hj & I).
        destruct (own_in st j u R Hj I) as [->| ->]; discriminate.
  - intros j u Hj I. rewrite Case in I. destruct (Nat.eqb_spec j i) as [->|Ne]; [apply Hl2, I|].
    assert (O : In u (own (pcs st j))) by (eapply Permutation_in; [symmetry; apply own_split|apply in_or_app; left; exact I]).
    rewrite Keep; [eapply r_ns2; eauto|rewrite (r_ns2 st R j u Hj I); discriminate|]. intros O2. eapply (own_disj st i j u); eauto.
  - intros j u Hj I. rewrite Case in I. destruct (Nat.eqb_spec j i) as [->|Ne]; [apply Hm3, I|].
    assert (O : In u (own (pcs st j))) by (eapply Permutation_in; [symmetry; apply own_split|apply in_or_app; right; exact I]).
    rewrite Keep; [eapply r_ns3; eauto|rewrite (r_ns3 st R j u Hj I); discriminate|]. intros O2. eapply (own_disj st i j u); eauto.
  - intros x I. destruct (Hmv x I) as [I'|[X _]]; [|exact X].
    rewrite Keep; [eapply r_mv3; eauto|rewrite (r_mv3 st R x I'); discriminate|]. intros O. eapply own_mvs; eauto.
  - intros u Hu. apply (r_elig st R). apply He, Hu.
  - intros u Hu. rewrite Hpart; [apply (r_part st R); apply H3, Hu|]. intros I.
    pose proof (r_ns3 st R i u Hi I) as X. specialize (H3 u Hu). contradiction.
  - intros j m Hj I. rewrite Case in I. destruct (Nat.eqb_spec j i) as [->|Ne]; [apply Hgood, I|]. eapply r_good; eauto.
  - intros x I. destruct (Hmv x I) as [I'|[_ X]]; [eapply r_goodm; eauto|exact X].
  - intros j m Hj I. rewrite Case in I. destruct (Nat.eqb_spec j i) as [->|Ne]; [apply Hcur, I|].
    rewrite Hpart; [eapply r_cur; eauto|]. intros O. eapply (own_disj st i j (m_u m)); eauto.
    + eapply Permutation_in; [symmetry; apply own_split|apply in_or_app; right; exact O].
    + destruct I as [->|[b ->]]; left; reflexivity.
  - intros j m b Hj E. rewrite Case in E. destruct (Nat.eqb_spec j i) as [->|Ne]; [apply Hfrom, E|]. eapply r_from; eauto.
  - rewrite Ep. destruct (flat_upd idl (pcs st) i n Hi) as (rest & P & Q). rewrite (Q p). apply Hids. rewrite <- P. apply (r_ids st R).
  - rewrite Ep. destruct (flat_upd upl (pcs st) i n Hi) as (rest & P & Q). rewrite (Q p). apply Hacc. rewrite <- P. apply (r_acc st R).
  - rewrite Ep. destruct (flat_upd subl (pcs st) i n Hi) as (rest & P & Q).
    rewrite (Permutation_length (Q p)). pose proof (r_nov st R) as N. rewrite (Permutation_length P) in N.
    rewrite app_length in N |- *. rewrite Nat2Z.inj_add in N |- *. lia.
  - intros b Hb O. apply Hmono; [exact Hb|]. destruct (Hov b Hb O) as [O'|D]; [apply (r_set st R b Hb O')|].
    apply (r_deact st R i b Hi D).
  - intros j b Hj E. rewrite Case in E. destruct (Nat.eqb_spec j i) as [->|Ne]; [apply Hde, E|].
    destruct (r_deact st R j b Hj E) as [A B]. split; [exact A|]. apply Hmono; assumption.
Qed.

Lemma filter_upd_false (f : nat -> bool) b l : NoDup l -> In b l -> f b = true ->
  length (filter f l) = S (length (filter (upd f b false) l)).
Proof using All.
  induction l as [|a l IH]; intros N I E; [destruct I|]. apply NoDup_cons_iff in N. destruct N as [Na N].
  cbn [filter]. destruct (Nat.eq_dec a b) as [->|Ne].
  - rewrite upd_same, E. cbn. f_equal. f_equal. apply filter_ext_in. intros x Hx. symmetry. apply upd_other. intros ->. contradiction.
  - rewrite upd_other by exact Ne. destruct I as [->|I]; [contradiction|].
    destruct (f a); cbn; rewrite (IH N I E); reflexivity.
Qed.

Ltac same_rc R Hi := eapply (local_step _ _ _ _ R Hi);
  [reflexivity|exact (r_base _ R)|exact (r_max _ R)|reflexivity|..].
Ltac triv := solve [exact (fun _ X => X) | exact (fun _ X _ => X) | exact (fun u X => False_ind _ (X eq_refl)) | exact (fun _ X => False_ind _ X)
  | (intros ? [?|[? ?]]; discriminate) | (intros; discriminate) | (intros; assumption) | (intros; reflexivity) | (intros; left; assumption) | reflexivity].

Lemma no_moving st i : RInv st -> (i < n)%nat -> (match pcs st i with RIn _ _ => False | _ => True end) -> th (rc st) i = Idle.
Proof using All. intros R Hi E. pose proof (r_th st R i Hi) as T. destruct (pcs st i); try exact T. destruct E. Qed.

Lemma free_own st i u : RInv st -> (i < n)%nat -> th (rc st) i = Idle -> In u (own (pcs st i)) -> is_free n (rc st) u = true.
Proof using All.
  intros R Hi Ti I. unfold is_free. apply forallb_forall. intros j Hj. apply in_seq in Hj. rewrite node_of_mv.
  destruct (mv_of (th (rc st) j)) as [m|] eqn:Em; [|reflexivity]. apply negb_true_iff, Nat.eqb_neq. intros Eu.
  assert (Ne : i <> j) by (intros ->; rewrite Ti in Em; discriminate Em).
  pose proof (r_th st R j ltac:(lia)) as T. assert (X : In u (own (pcs st j))).
  { destruct (pcs st j) as [| | | | | | | |m' id| |]; try (rewrite T in Em; discriminate Em). destruct T as [T _]. rewrite Em in T. injection T as <-. left. exact Eu. }
  eapply (own_disj st i j u); eauto. lia.
Qed.

Lemma step_inv st la st' : RInv st -> rstep H k n mops L st la = Some st' -> RInv st'.
Proof using All.
  intros R E. destruct la as [i a]. unfold rstep in E. destruct (Nat.ltb_spec i n) as [Hi|]; [|discriminate E].
  destruct (r_base st R) as [eff B].
  destruct (pcs st i) as [| |u|m|m b|b| |m|m id|m id lo|] eqn:Ep; destruct a as [v| |to| |v|v|]; try discriminate E; try (destruct lo; discriminate E).
  - (* RTop *) injection E as <-. pose proof (no_moving st i R Hi ltac:(rewrite Ep; exact I)) as Ti.
    destruct (0 <? nov st); same_rc R Hi; rewrite ?Ep; cbn; try exact Ti; triv.
  - (* RFind, ATry *)
    destruct (Nat.eqb_spec (ns st v) 1) as [E1|N1]; [|injection E as <-; exact R]. injection E as <-.
    pose proof (no_moving st i R Hi ltac:(rewrite Ep; exact I)) as Ti.
    same_rc R Hi; rewrite ?Ep; cbn [rc ns pcs gid mvs ov nov set_pc set_ns own lockedl movedl mvl idl upl subl app length]; try exact Ti; try triv.
    + intros rest ND F. apply NoDup_Add with (l := map (fun x => m_u (snd x)) (mvs st) ++ rest) (a := v); [apply Add_app|].
      split; [exact ND|]. intros I. exact (F v I E1).
    + intros u Hu. unfold upd in Hu. destruct (Nat.eqb_spec u v) as [Eq|Ne]; [rewrite Eq; left; exact E1|congruence].
    + intros u [<-|[]]. apply upd_same.
    + intros u Hu. unfold upd in Hu. destruct (Nat.eqb_spec u v) as [Eq|Ne]; [rewrite Eq; rewrite E1; discriminate|exact Hu].
    + intros u Hu. unfold upd in Hu. destruct (Nat.eqb_spec u v) as [Eq|Ne]; [rewrite Eq; rewrite E1; discriminate|exact Hu].
  - (* RFind, AEmpty *) injection E as <-. pose proof (no_moving st i R Hi ltac:(rewrite Ep; exact I)) as Ti.
    same_rc R Hi; rewrite ?Ep; cbn; try exact Ti; triv.
  - (* RCand, AKeep *)
    destruct (part (sh (rc st)) u) as [f|] eqn:Ef; [|discriminate E]. destruct (_ && _) eqn:Eg in E; [|discriminate E]. injection E as <-.
    apply andb_true_iff in Eg. destruct Eg as [G1 G2]. apply Nat.ltb_lt in G1. apply negb_true_iff, Nat.eqb_neq in G2.
    pose proof (no_moving st i R Hi ltac:(rewrite Ep; exact I)) as Ti.
    assert (N2 : ns st u = 2%nat) by (apply (r_ns2 st R i u Hi); rewrite Ep; left; reflexivity).
    same_rc R Hi; rewrite ?Ep; cbn [rc ns pcs gid mvs ov nov set_pc set_ns own lockedl movedl mvl idl upl subl app length m_u]; try exact Ti; try triv.
    + intros x [<-|[]]. exact N2.
    + intros m [<-|[]]. unfold good_mv. cbn. rewrite <- (r_part st R u) by (rewrite N2; discriminate).
      split; [exact Ef|]. split; [congruence|]. split; [exact G1|]. split; [reflexivity|]. apply (r_elig st R). rewrite N2. discriminate.
  - (* RCand, ADrop *) injection E as <-. pose proof (no_moving st i R Hi ltac:(rewrite Ep; exact I)) as Ti.
    assert (N2 : ns st u = 2%nat) by (apply (r_ns2 st R i u Hi); rewrite Ep; left; reflexivity).
    same_rc R Hi; rewrite ?Ep; cbn [rc ns pcs gid mvs ov nov set_pc set_ns own lockedl movedl mvl idl upl subl app length m_u]; try exact Ti; try triv.
    + intros rest ND _. eapply NoDup_remove_1. exact ND.
    + intros x Hx. unfold upd in Hx. destruct (Nat.eqb_spec x u) as [Eq|Ne]; [rewrite Eq; right; left; reflexivity|congruence].
    + intros x Hx. unfold upd in Hx. destruct (Nat.eqb_spec x u) as [Eq|Ne]; [rewrite Eq; rewrite N2; discriminate|exact Hx].
    + intros x Hx. unfold upd in Hx. destruct (Nat.eqb_spec x u) as [Eq|Ne]; [rewrite Eq; rewrite N2; discriminate|exact Hx].
  - (* RNext *)
    destruct (part (sh (rc st)) (m_u m)) as [f|] eqn:Ef; [|discriminate E]. injection E as <-.
    pose proof (no_moving st i R Hi ltac:(rewrite Ep; exact I)) as Ti.
    assert (N2 : ns st (m_u m) = 2%nat) by (apply (r_ns2 st R i _ Hi); rewrite Ep; left; reflexivity).
    assert (G : good_mv m) by (apply (r_good st R i m Hi); rewrite Ep; left; reflexivity).
    assert (PE : part (sh (rc st)) (m_u m) = P0 (m_u m)) by (apply (r_part st R); rewrite N2; discriminate).
    same_rc R Hi; rewrite ?Ep; cbn [rc ns pcs gid mvs ov nov set_pc set_ns own lockedl movedl mvl idl upl subl app length m_u]; try exact Ti; try triv.
    + intros x Hx. unfold upd in Hx. destruct (Nat.eqb_spec x (m_u m)) as [Eq|Ne]; [rewrite Eq; right; left; reflexivity|congruence].
    + intros x [<-|[]]. apply upd_same.
    + intros x Hx. unfold upd in Hx. destruct (Nat.eqb_spec x (m_u m)) as [Eq|Ne]; [rewrite Eq; rewrite N2; discriminate|exact Hx].
    + intros x Hx. unfold upd in Hx. destruct (Nat.eqb_spec x (m_u m)) as [Eq|Ne]; [rewrite Eq; rewrite N2; discriminate|exact Hx].
    + intros x [<-|[]]. exact G.
    + intros m' [X|[b X]]; [discriminate X|]. injection X as <- <-. exact PE.
    + intros m' b X. injection X as <- <-. destruct G as (G & _). congruence.
  - (* RMarked *) injection E as <-. pose proof (no_moving st i R Hi ltac:(rewrite Ep; exact I)) as Ti.
    assert (N3 : ns st (m_u m) = 3%nat) by (apply (r_ns3 st R i _ Hi); rewrite Ep; left; reflexivity).
    assert (G : good_mv m) by (apply (r_good st R i m Hi); rewrite Ep; left; reflexivity).
    assert (PE : part (sh (rc st)) (m_u m) = P0 (m_u m)) by (apply (r_cur st R i m Hi); right; exists b; exact Ep).
    assert (Hb : b = m_from m) by (eapply r_from; eauto).
    destruct (Z.leb_spec (wt (sh (rc st)) b) (L b)) as [Hw|Hw];
      same_rc R Hi; rewrite ?Ep; cbn [rc ns pcs gid mvs ov nov set_pc set_ns own lockedl movedl mvl idl upl subl app length m_u]; try exact Ti; try triv.
    + intros rest ND _. eapply NoDup_remove_1. exact ND.
    + intros b' X. injection X as <-.
      assert (Kb : (b < k)%nat) by (rewrite Hb; apply (b_part H k n _ eff B (m_u m)); rewrite PE; apply G).
      split; [exact Kb|].
      pose proof (b_wt H k n _ eff B b Kb) as W. unfold cur.
      assert (sumZ (fun j => committed H (th (rc st) j) b) (seq 0 n) <= sumZ (fun j => cwt H (th (rc st) j) b) (seq 0 n)); [|lia].
      apply sumZ_le. intros j Hj. apply in_seq in Hj. eapply (committed_le H k n mops L Hnw); eauto. lia.
    + intros x [<-|[]]. exact N3.
    + intros x [<-|[]]. exact G.
    + intros m' [X|[b' X]]; [|discriminate X]. injection X as <-. exact PE.
  - (* RDeact *) pose proof (no_moving st i R Hi ltac:(rewrite Ep; exact I)) as Ti.
    destruct (r_deact st R i b Hi Ep) as [Kb Cb].
    destruct (ov st b) eqn:Eo; injection E as <-.
    + same_rc R Hi; rewrite ?Ep; cbn [rc ns pcs gid mvs ov nov set_pc set_ns own lockedl movedl mvl idl upl subl app length m_u]; try exact Ti; try triv.
      * rewrite (filter_upd_false (ov st) b (seq 0 k) (seq_NoDup _ _) ltac:(apply in_seq; lia) Eo). lia.
      * intros b' Hb' O. unfold upd in O. destruct (Nat.eqb_spec b' b) as [Eq|Ne]; [rewrite Eq; right; reflexivity|left; exact O].
    + same_rc R Hi; rewrite ?Ep; cbn [rc ns pcs gid mvs ov nov set_pc set_ns own lockedl movedl mvl idl upl subl app length m_u]; try exact Ti; triv.
  - (* RSub *) injection E as <-. pose proof (no_moving st i R Hi ltac:(rewrite Ep; exact I)) as Ti.
    same_rc R Hi; rewrite ?Ep; cbn [rc ns pcs gid mvs ov nov set_pc set_ns own lockedl movedl mvl idl upl subl app length m_u]; try exact Ti; try triv. lia.
  - (* RCall *)
    destruct (cstep H n mops (rc st) (Begin i m)) as [c|] eqn:Ec; [|discriminate E]. injection E as <-.
    assert (N3 : ns st (m_u m) = 3%nat) by (apply (r_ns3 st R i _ Hi); rewrite Ep; left; reflexivity).
    assert (G : good_mv m) by (apply (r_good st R i m Hi); rewrite Ep; left; reflexivity).
    destruct (cur_step (rc st) eff (Begin i m) c B (r_max st R) ltac:(cbn; destruct G as (_ & _ & _ & -> & _); lia) Ec) as [M' C'].
    pose proof (step_base H k n mops WF (rc st) eff (Begin i m) c B Ec) as B'.
    pose proof (no_moving st i R Hi ltac:(rewrite Ep; exact I)) as Ti.
    cbn [cstep] in Ec. rewrite Ti in Ec. destruct (_ && _) in Ec; [|discriminate Ec]. injection Ec as <-.
    eapply (local_step _ _ _ _ R Hi); [reflexivity|exists eff; exact B'|exact M'|..]; rewrite ?Ep;
      cbn [rc ns pcs gid mvs ov nov set_pc set_rc set_ns own lockedl movedl mvl idl upl subl app length m_u]; try triv.
    + intros j Hj. cbn. apply upd_other. exact Hj.
    + cbn. rewrite upd_same. split; [reflexivity|exact I].
    + intros x [<-|[]]. exact N3.
    + intros x [<-|[]]. exact G.
    + intros b Hb Cb. specialize (C' b Hb). lia.
  - (* RIn *)
    assert (N3 : ns st (m_u m) = 3%nat) by (apply (r_ns3 st R i _ Hi); rewrite Ep; left; reflexivity).
    assert (G : good_mv m) by (apply (r_good st R i m Hi); rewrite Ep; left; reflexivity).
    pose proof (r_th st R i Hi) as T. rewrite Ep in T. destruct T as [Tm Tid].
    destruct (in_edges (th (rc st) i) && match id with Some _ => false | None => true end) eqn:Eid.
    + injection E as <-. apply andb_true_iff in Eid. destruct Eid as [Ee En]. destruct id as [j|]; [discriminate En|].
      same_rc R Hi; rewrite ?Ep; cbn [rc ns pcs gid mvs ov nov set_pc set_ns own lockedl movedl mvl idl upl subl app length m_u]; try triv.
      * split; [exact Tm|]. destruct (th (rc st) i); try discriminate Ee. exact I.
      * intros x [<-|[]]. exact N3.
      * intros x [<-|[]]. exact G.
      * intros rest P. rewrite seq_S. cbn [plus]. rewrite <- P.
        rewrite <- Permutation_middle. rewrite <- Permutation_cons_append. apply Permutation_refl.
    + destruct (cstep H n mops (rc st) (Adv i)) as [c|] eqn:Ec; [|discriminate E]. injection E as <-.
      destruct (cur_step (rc st) eff (Adv i) c B (r_max st R) I Ec) as [M' C'].
      pose proof (step_base H k n mops WF (rc st) eff (Adv i) c B Ec) as B'.
      destruct (adv_facts (rc st) i m c Hi Tm Ec) as (t & Et & Pt & Rt).
      assert (Eti : th c i = t) by (rewrite Et; apply upd_same).
      eapply (local_step _ _ _ _ R Hi); [reflexivity|eexists; exact B'|exact M'|..]; rewrite ?Ep;
        cbn [rc ns pcs gid mvs ov nov set_pc set_rc set_ns m_u]; rewrite ?Eti; try triv.
      * intros j Hj. rewrite Et. apply upd_other. exact Hj.
      * destruct (th (rc st) i) as [|m1 a|m1|m1 rem|m1 e rem|m1 e rem fa|m1 rem su|m1 rem ops] eqn:Ei;
          try discriminate Tm; cbn in Tm; injection Tm as ->; destruct id as [j|]; try destruct Tid; try discriminate Eid;
          repeat match goal with X : _ \/ _ |- _ => destruct X | X : _ /\ _ |- _ => destruct X end; try (match goal with X : t = _ |- _ => rewrite X in Eti |- * end); cbn [is_idle];
          try (match goal with X : rep c = _ :: _ |- _ => rewrite X end; cbn; reflexivity);
          try (cbn; split; [reflexivity|reflexivity || exact I]);
          match goal with X : mv_of ?x = Some _ |- _ => is_var x; destruct x; try contradiction; cbn [is_idle]; split; auto end.
      * intros rest ND _. destruct (is_idle t); [|exact ND].
        destruct (rep c) as [|[m' [|]] r]; cbn [own]; [eapply NoDup_remove_1; exact ND|exact ND|eapply NoDup_remove_1; exact ND].
      * intros x I. destruct (is_idle t); [|destruct I]. destruct (rep c) as [|[m' [|]] r]; destruct I.
      * intros x I. destruct (is_idle t); [|destruct I as [<-|[]]; exact N3].
        destruct (rep c) as [|[m' [|]] r]; [destruct I| |destruct I]. destruct I as [<-|[]]. exact N3.
      * intros x Hx. apply Pt. intros ->. apply Hx. left. reflexivity.
      * intros x I. destruct (is_idle t); [|destruct I as [<-|[]]; exact G].
        destruct (rep c) as [|[m' [|]] r]; [destruct I| |destruct I]. destruct I as [<-|[]]. exact G.
      * intros m' X. exfalso. destruct (is_idle t); [destruct (rep c) as [|[m2 [|]] r]|]; destruct X as [X|[b X]]; discriminate X.
      * intros m' b X. exfalso. destruct (is_idle t); [destruct (rep c) as [|[m2 [|]] r]|]; discriminate X.
      * (* ids *)
        intros rest P.
        destruct (th (rc st) i) as [|m1 a|m1|m1 rem|m1 e rem|m1 e rem fa|m1 rem su|m1 rem ops] eqn:Ei;
          try discriminate Tm; cbn in Tm; injection Tm as ->; destruct id as [j|]; try destruct Tid; try discriminate Eid;
          repeat match goal with X : _ \/ _ |- _ => destruct X | X : _ /\ _ |- _ => destruct X end; try (match goal with X : t = _ |- _ => rewrite X in Eti |- * end); cbn [is_idle];
          try (match goal with X : rep c = _ :: _ |- _ => rewrite X end); cbn [idl dflt app] in *; try exact P;
          match goal with X : mv_of ?x = Some _ |- _ => is_var x; destruct x; try contradiction; cbn [is_idle]; exact P end.
      * (* accepted *)
        intros rest P. cbn [upl app] in P.
        destruct (th (rc st) i) as [|m1 a|m1|m1 rem|m1 e rem|m1 e rem fa|m1 rem su|m1 rem ops] eqn:Ei;
          try discriminate Tm; cbn in Tm; injection Tm as ->; destruct id as [j|]; try destruct Tid; try discriminate Eid;
          repeat match goal with X : _ \/ _ |- _ => destruct X | X : _ /\ _ |- _ => destruct X end; try (match goal with X : t = _ |- _ => rewrite X in Eti |- * end); cbn [is_idle];
          match goal with X : rep c = _ |- _ => rewrite X end; cbn [upl app]; unfold accepted; cbn [filter snd map fst]; try exact P;
          try (rewrite <- Permutation_middle; apply perm_skip; exact P);
          match goal with X : mv_of ?x = Some _ |- _ => is_var x; destruct x; try contradiction; cbn [is_idle upl app]; exact P end.
      * destruct (is_idle t); [|reflexivity]. destruct (rep c) as [|[m' [|]] r]; reflexivity.
      * intros b Hb Cb. specialize (C' b Hb). lia.
      * intros b X. exfalso. destruct (is_idle t); [destruct (rep c) as [|[m2 [|]] r]|]; discriminate X.
  - (* RUpd, ANeigh *)
    assert (E' : (if negb (Nat.eqb v (m_u m)) && Nat.eqb (ns st v) 1 then Some (set_pc (set_ns st v 2) i (RUpd m id (v :: lo))) else Some st) = Some st')
      by (destruct lo; exact E). clear E.
    destruct (_ && _) eqn:Eg in E'; injection E' as <-; [|exact R].
    apply andb_true_iff in Eg. destruct Eg as [G1 G2]. apply negb_true_iff, Nat.eqb_neq in G1. apply Nat.eqb_eq in G2.
    pose proof (no_moving st i R Hi ltac:(rewrite Ep; exact I)) as Ti.
    assert (N3 : ns st (m_u m) = 3%nat) by (apply (r_ns3 st R i _ Hi); rewrite Ep; left; reflexivity).
    assert (N2 : forall u, In u lo -> ns st u = 2%nat) by (intros u I; apply (r_ns2 st R i _ Hi); rewrite Ep; exact I).
    assert (G : good_mv m) by (apply (r_good st R i m Hi); rewrite Ep; left; reflexivity).
    same_rc R Hi; rewrite ?Ep; cbn [rc ns pcs gid mvs ov nov set_pc set_ns own lockedl movedl mvl idl upl subl length m_u]; try exact Ti; try triv.
    + intros rest ND F. apply (Permutation_NoDup (l := v :: (map (fun x => m_u (snd x)) (mvs st) ++ (m_u m :: lo) ++ rest))).
      * rewrite Permutation_middle. apply Permutation_app_head. cbn [app]. apply perm_swap.
      * constructor; [|exact ND]. intros I. exact (F v I G2).
    + intros u Hu. unfold upd in Hu. destruct (Nat.eqb_spec u v) as [Eq|Ne]; [rewrite Eq; left; exact G2|congruence].
    + intros u [<-|I]; [apply upd_same|]. specialize (N2 u I). rewrite upd_other; [exact N2|]. intros ->. congruence.
    + intros u [<-|[]]. rewrite upd_other by congruence. exact N3.
    + intros u Hu. unfold upd in Hu. destruct (Nat.eqb_spec u v) as [Eq|Ne]; [rewrite Eq, G2; discriminate|exact Hu].
    + intros u Hu. unfold upd in Hu. destruct (Nat.eqb_spec u v) as [Eq|Ne]; [rewrite Eq, G2; discriminate|exact Hu].
    + intros x [<-|[]]. exact G.
  - (* RUpd, ARelease *)
    assert (E' : (if mem v lo then Some (set_pc (set_ns st v 1) i (RUpd m id (remove Nat.eq_dec v lo))) else None) = Some st')
      by (destruct lo; exact E). clear E.
    destruct (mem v lo) eqn:Em; [|discriminate E']. injection E' as <-. apply mem_In in Em.
    pose proof (no_moving st i R Hi ltac:(rewrite Ep; exact I)) as Ti.
    assert (N3 : ns st (m_u m) = 3%nat) by (apply (r_ns3 st R i _ Hi); rewrite Ep; left; reflexivity).
    assert (N2 : forall u, In u lo -> ns st u = 2%nat) by (intros u I; apply (r_ns2 st R i _ Hi); rewrite Ep; exact I).
    assert (G : good_mv m) by (apply (r_good st R i m Hi); rewrite Ep; left; reflexivity).
    assert (Sub : forall l v0, NoDup l -> NoDup (remove Nat.eq_dec v0 l)).
    { intros l v0. induction l as [|a l IH]; intros N; [constructor|]. apply NoDup_cons_iff in N. destruct N as [Na N]. cbn.
      destruct (Nat.eq_dec v0 a); [apply IH, N|]. constructor; [|apply IH, N]. intros I. apply in_remove in I. tauto. }
    same_rc R Hi; rewrite ?Ep; cbn [rc ns pcs gid mvs ov nov set_pc set_ns own lockedl movedl mvl idl upl subl length m_u]; try exact Ti; try triv.
    + intros rest ND F.
      assert (ND2 : NoDup ((map (fun x => m_u (snd x)) (mvs st) ++ [m_u m]) ++ lo ++ rest)) by (rewrite <- app_assoc; exact ND).
      assert (NDl : NoDup lo) by (apply NoDup_app_r in ND2; apply (NoDup_app_l lo rest ND2)).
      change ((m_u m :: remove Nat.eq_dec v lo) ++ rest) with ([m_u m] ++ remove Nat.eq_dec v lo ++ rest).
      apply in_split in Em. destruct Em as (l1 & l2 & El). rewrite El in ND2 |- *.
      assert (Er : remove Nat.eq_dec v (l1 ++ v :: l2) = l1 ++ l2).
      { rewrite El in NDl. pose proof (NoDup_remove_2 _ _ _ NDl) as Nv. rewrite remove_app. cbn. destruct (Nat.eq_dec v v); [|congruence].
        rewrite !notin_remove; [reflexivity| |]; intros I; apply Nv, in_or_app; tauto. }
      rewrite Er. rewrite app_assoc. rewrite <- !app_assoc in ND2 |- *. cbn [app] in ND2 |- *.
      rewrite (app_comm_cons l1 (v :: l2 ++ rest) (m_u m)), app_assoc in ND2. apply NoDup_remove_1 in ND2.
      rewrite <- app_assoc in ND2. exact ND2.
    + intros u Hu. unfold upd in Hu. destruct (Nat.eqb_spec u v) as [Eq|Ne]; [rewrite Eq; right; right; exact Em|congruence].
    + intros u I. apply in_remove in I. destruct I as [I Ne]. rewrite upd_other by exact Ne. apply N2, I.
    + intros u [<-|[]]. rewrite upd_other; [exact N3|]. intros Eq. specialize (N2 v Em). congruence.
    + intros u Hu. unfold upd in Hu. destruct (Nat.eqb_spec u v) as [Eq|Ne]; [rewrite Eq, (N2 v Em); discriminate|exact Hu].
    + intros u Hu. unfold upd in Hu. destruct (Nat.eqb_spec u v) as [Eq|Ne]; [rewrite Eq, (N2 v Em); discriminate|exact Hu].
    + intros x [<-|[]]. exact G.
  - (* RUpd, write of the move *)
    destruct lo as [|v lo]; [|discriminate E]. injection E as <-.
    pose proof (no_moving st i R Hi ltac:(rewrite Ep; exact I)) as Ti.
    assert (N3 : ns st (m_u m) = 3%nat) by (apply (r_ns3 st R i _ Hi); rewrite Ep; left; reflexivity).
    assert (G : good_mv m) by (apply (r_good st R i m Hi); rewrite Ep; left; reflexivity).
    same_rc R Hi; rewrite ?Ep; cbn [rc ns pcs gid mvs ov nov set_pc set_ns own lockedl movedl mvl idl upl subl app length m_u map fst snd]; try exact Ti; try triv.
    + intros rest ND _. eapply Permutation_NoDup; [|exact ND]. symmetry. apply Permutation_middle.
    + intros x [<-|I]; [right; split; [exact N3|exact G]|left; exact I].
    + intros rest P. rewrite <- P. apply Permutation_middle.
    + intros rest P. rewrite <- P. apply Permutation_middle.
Qed.

Lemma flat_nil {A B} (f : A -> list B) l : (forall x, In x l -> f x = []) -> flat_map f l = [].
Proof using All. induction l as [|a l IH]; intros E; cbn; [reflexivity|]. rewrite (E a (or_introl eq_refl)), IH; [reflexivity|]. intros x Hx. apply E. right. exact Hx. Qed.

Lemma over_spec b : (b < k)%nat -> over L s0 b = (L b <? block_weight H P0 b).
Proof using All. intros Hb. unfold over. rewrite Hk. rewrite <- (c_wt H s0 C0 b) by (rewrite Hk; exact Hb). destruct (Nat.ltb_spec b k); [reflexivity|lia]. Qed.

Lemma init_inv : RInv init.
Proof using All.
  assert (B : Base H k n (cinit s0 c0) (fun _ => P0)) by (rewrite <- Hk; apply base_init; assumption).
  assert (N : forall {B0} (F : rpc -> list B0), F RTop = [] -> flat_map (fun _ : nat => F RTop) (seq 0 n) = []) by (intros B0 F E; apply flat_nil; intros x _; exact E).
  constructor; cbn [rinit rc pcs gid mvs ov nov map app]; try (intros; contradiction); try (intros; discriminate).
  - eexists. exact B.
  - reflexivity.
  - rewrite (N _ own eq_refl). constructor.
  - intros u Hu. cbn [rinit ns] in Hu. destruct (_ && found u) eqn:E in Hu; [|congruence].
    apply andb_true_iff in E. destruct E as [E _]. apply andb_true_iff in E. destruct E as [E Eo]. apply andb_true_iff in E. destruct E as [Em Ef].
    apply mem_In in Em. apply negb_true_iff in Ef. split; [exact Em|]. split; [exact Ef|].
    destruct (P0 u) as [b|] eqn:Ep; [|discriminate Eo]. exists b. split; [reflexivity|].
    assert (Hb : (b < k)%nat) by (unfold over in Eo; apply andb_true_iff in Eo; destruct Eo as [Eo _]; apply Nat.ltb_lt in Eo; lia).
    split; [exact Hb|]. rewrite (over_spec b Hb) in Eo. apply Z.ltb_lt, Eo.
  - reflexivity.
  - intros i m _ [X|[b X]]; discriminate X.
  - rewrite (N _ idl eq_refl). constructor.
  - rewrite (N _ upl eq_refl). constructor.
  - rewrite (N _ subl eq_refl), Hk. cbn. lia.
  - intros b Hb Eo. rewrite (over_spec b Hb) in Eo. apply Z.ltb_ge in Eo. unfold cur. cbn. rewrite sumZ_zero by reflexivity. lia.
Qed.

Lemma run_inv l : forall st st', RInv st -> rrun H k n mops L st l = Some st' -> RInv st'.
Proof using All.
  unfold rrun. induction l as [|a l IH]; intros st st' R E; cbn [fold_opt] in E; [injection E as <-; exact R|].
  destruct (rstep H k n mops L st a) as [st1|] eqn:E1; [|discriminate E]. eapply IH; [|exact E]. eapply step_inv; eauto.
Qed.

(** Every step of the rebalancer is a (possibly empty) sequence of steps of concurrent changeNodePart calls. *)
Lemma step_proj st la st' : RInv st -> rstep H k n mops L st la = Some st' ->
  exists cl, crun H n mops (rc st) cl = Some (rc st') /\ Forall (label_ok L) cl.
Proof using All.
  intros R E. destruct la as [i a]. unfold rstep in E. destruct (Nat.ltb_spec i n) as [Hi|]; [|discriminate E].
  destruct (pcs st i) as [| |u|m|m b|b| |m|m id|m id lo|] eqn:Ep; destruct a as [v| |to| |v|v|]; try discriminate E; try (destruct lo; discriminate E);
    try (injection E as <-; exists []; split; [reflexivity|constructor]).
  - destruct (Nat.eqb _ _) in E; injection E as <-; exists []; (split; [reflexivity|constructor]).
  - destruct (part (sh (rc st)) u); [|discriminate E]. destruct (_ && _) in E; [|discriminate E]. injection E as <-. exists []. split; [reflexivity|constructor].
  - destruct (part (sh (rc st)) (m_u m)); [|discriminate E]. injection E as <-. exists []. split; [reflexivity|constructor].
  - destruct (ov st b); injection E as <-; exists []; (split; [reflexivity|constructor]).
  - destruct (cstep H n mops (rc st) (Begin i m)) as [c|] eqn:Ec; [|discriminate E]. injection E as <-.
    exists [Begin i m]. unfold crun. cbn [fold_opt]. rewrite Ec. split; [reflexivity|]. constructor; [|constructor].
    assert (G : good_mv m) by (apply (r_good st R i m Hi); rewrite Ep; left; reflexivity). cbn. destruct G as (_ & _ & _ & -> & _). lia.
  - destruct (_ && _) in E; [injection E as <-; exists []; split; [reflexivity|constructor]|].
    destruct (cstep H n mops (rc st) (Adv i)) as [c|] eqn:Ec; [|discriminate E]. injection E as <-.
    exists [Adv i]. unfold crun. cbn [fold_opt]. rewrite Ec. split; [reflexivity|]. constructor; [exact I|constructor].
  - assert (E' : exists st1 b, (if (b : bool) then Some st1 else Some st) = Some st' /\ rc st1 = rc st) by (destruct lo; eexists _, _; (split; [exact E|reflexivity])).
    destruct E' as (st1 & b & E' & Er). exists []. destruct b; injection E' as <-; rewrite ?Er; (split; [reflexivity|constructor]).
  - assert (E' : exists st1, Some st1 = Some st' /\ rc st1 = rc st) by (destruct lo; (destruct (mem v _) in E; [|discriminate E]); eexists; (split; [exact E|reflexivity])).
    destruct E' as (st1 & E' & Er). exists []. injection E' as <-. rewrite Er. split; [reflexivity|constructor].
  - destruct lo; [|discriminate E]. injection E as <-. exists []. split; [reflexivity|constructor].
Qed.
Lemma run_proj l : forall st st', RInv st -> rrun H k n mops L st l = Some st' ->
  exists cl, crun H n mops (rc st) cl = Some (rc st') /\ Forall (label_ok L) cl.
Proof using All.
  unfold rrun. induction l as [|a l IH]; intros st st' R E; cbn [fold_opt] in E; [injection E as <-; exists []; split; [reflexivity|constructor]|].
  destruct (rstep H k n mops L st a) as [st1|] eqn:E1; [|discriminate E].
  destruct (step_proj st a st1 R E1) as (c1 & A1 & B1). destruct (IH st1 st' (step_inv st a st1 R E1) E) as (c2 & A2 & B2).
  exists (c1 ++ c2). split; [|apply Forall_app; tauto]. unfold crun in *. rewrite fold_opt_app, A1. exact A2.
Qed.

(** The call of changeNodePart is always within its usage contract. *)
Lemma call_enabled st i m : RInv st -> (i < n)%nat -> pcs st i = RCall m -> exists c, cstep H n mops (rc st) (Begin i m) = Some c.
Proof using All.
  intros R Hi Ep. pose proof (no_moving st i R Hi ltac:(rewrite Ep; exact I)) as Ti. destruct (r_base st R) as [eff B].
  assert (G : good_mv m) by (apply (r_good st R i m Hi); rewrite Ep; left; reflexivity). destruct G as (G1 & G2 & G3 & _ & G4 & _).
  assert (F : is_free n (rc st) (m_u m) = true) by (apply (free_own st i); auto; rewrite Ep; left; reflexivity).
  assert (PE : part (sh (rc st)) (m_u m) = P0 (m_u m)) by (apply (r_cur st R i m Hi); left; exact Ep).
  cbn [cstep]. rewrite Ti, F. assert (Hb : in_block (part (sh (rc st))) (m_from m) (m_u m) = true) by (apply in_block_true; rewrite PE; exact G1).
  rewrite Hb, (b_k H k n _ eff B). apply mem_In in G4. rewrite G4.
  destruct (Nat.ltb_spec i n); [|lia]. destruct (Nat.ltb_spec (m_to m) k); [|lia]. destruct (Nat.eqb_spec (m_from m) (m_to m)); [contradiction|].
  cbn [andb negb]. eexists. reflexivity.
Qed.

(** ---- the end of a call ---- *)
Variable st : rst.
Hypothesis R : RInv st.
Hypothesis J : joined n st.

Lemma end_nil {B0} (F : rpc -> list B0) : F REnd = [] -> flat_map (fun j => F (pcs st j)) (seq 0 n) = [].
Proof using All. intros E. apply flat_nil. intros x Hx. apply in_seq in Hx. rewrite (J x) by lia. exact E. Qed.
Lemma end_quiescent : quiescent n (rc st).
Proof using All. intros i Hi. apply (no_moving st i R Hi). rewrite (J i Hi). exact I. Qed.
Lemma end_ids : Permutation (map fst (mvs st)) (seq 0 (gid st)).
Proof using All. pose proof (r_ids st R) as P. rewrite (end_nil idl eq_refl), app_nil_r in P. exact P. Qed.
Lemma end_acc : Permutation (map snd (mvs st)) (accepted (rep (rc st))).
Proof using All. pose proof (r_acc st R) as P. rewrite (end_nil upl eq_refl), app_nil_r in P. exact P. Qed.
Lemma entries_perm (l : list (nat * mv)) : NoDup (map fst l) ->
  flat_map (fun j => match option_map snd (find (fun x => Nat.eqb (fst x) j) l) with Some m => [m] | None => [] end) (map fst l) = map snd l.
Proof using All.
  induction l as [|[j m] l IH]; intros N; [reflexivity|]. cbn [map fst] in N. apply NoDup_cons_iff in N. destruct N as [Nj N].
  cbn [map fst snd flat_map find]. rewrite Nat.eqb_refl. cbn [option_map snd app]. f_equal. etransitivity; [|exact (IH N)].
  apply flat_map_ext_in. intros x Hx. destruct (Nat.eqb_spec j x) as [E|_]; [subst x; contradiction|]. reflexivity.
Qed.
Lemma end_linear : Permutation (moves_linear st) (map snd (mvs st)).
Proof using All.
  unfold moves_linear, entry. rewrite <- (entries_perm (mvs st)).
  - apply Permutation_flat_map. symmetry. apply end_ids.
  - eapply Permutation_NoDup; [symmetry; apply end_ids|apply seq_NoDup].
Qed.
Lemma end_nodup : NoDup (map m_u (moves_linear st)).
Proof using All.
  pose proof (r_own st R) as N. rewrite (end_nil own eq_refl), app_nil_r in N. rewrite end_linear, map_map. exact N.
Qed.
Lemma end_good m : In m (moves_linear st) -> good_mv m.
Proof using All.
  intros I. apply (Permutation_in _ end_linear) in I. apply in_map_iff in I. destruct I as (x & <- & I). apply (r_goodm st R x I).
Qed.
Lemma bucket {A} (f : A -> nat) l : forall q, Permutation (concat (map (fun p => filter (fun x => Nat.eqb (f x) p) l) (seq 0 q))) (filter (fun x => (f x <? q)%nat) l).
Proof using All.
  induction q as [|q IH].
  - cbn. replace (filter _ l) with (@nil A); [constructor|]. symmetry. induction l as [|a l IHl]; [reflexivity|]. cbn. exact IHl.
  - rewrite seq_S, map_app, concat_app. cbn [map concat plus]. rewrite app_nil_r, IH. clear IH. induction l as [|a l IHl]; [constructor|].
    cbn [filter]. destruct (Nat.eqb_spec (f a) q) as [E|Ne]; destruct (Nat.ltb_spec (f a) q), (Nat.ltb_spec (f a) (S q)); try lia; cbn [app];
      [rewrite <- Permutation_middle|..]; try apply perm_skip; exact IHl.
Qed.
Lemma end_all : Permutation (all_reb k (moves_by_part st)) (map imv (moves_linear st)).
Proof using All.
  unfold all_reb, moves_by_part. rewrite <- (map_map (fun p => filter (fun m => Nat.eqb (m_from m) p) (moves_linear st)) (map imv)), <- concat_map.
  apply Permutation_map. rewrite (bucket m_from). replace (filter _ (moves_linear st)) with (moves_linear st); [reflexivity|].
  assert (X : forall m, In m (moves_linear st) -> (m_from m < k)%nat).
  { intros m I. destruct (end_good m I) as (G & _). destruct (r_base st R) as [eff B].
    apply (c_part H s0 C0) in G. rewrite Hk in G. exact G. }
  induction (moves_linear st) as [|a l IH]; [reflexivity|]. cbn [filter]. destruct (Nat.ltb_spec (m_from a) k) as [_|Bad].
  - f_equal. apply IH. intros m I. apply X. right. exact I.
  - specialize (X a (or_introl eq_refl)). lia.
Qed.
Lemma replay_acc P r : NoDup (map m_u (accepted r)) ->
  (forall m, In m (accepted r) -> replay P r (m_u m) = Some (m_to m)) /\ (forall v, ~ In v (map m_u (accepted r)) -> replay P r v = P v).
Proof using All.
  unfold accepted. induction r as [|[m b] r IH]; intros N; [split; [intros m []|reflexivity]|].
  cbn [filter snd] in N |- *. destruct b; cbn [map fst] in N |- *; cbn [replay fold_right fst snd]; fold (replay P r).
  - apply NoDup_cons_iff in N. destruct N as [Nm N]. destruct (IH N) as [I1 I2]. split.
    + intros m' [<-|Hm']; [apply upd_same|]. unfold move. rewrite upd_other; [apply I1, Hm'|]. intros E. apply Nm. rewrite <- E. apply in_map, Hm'.
    + intros v Hv. unfold move. rewrite upd_other; [apply I2|]; intros X; apply Hv; [right; exact X|left; symmetry; exact X].
  - apply IH, N.
Qed.
Lemma end_reb_ok : reb_ok H k P0 (moves_by_part st).
Proof using All.
  constructor.
  - intros p m Hp I. unfold moves_by_part in I. apply in_map_iff in I. destruct I as (x & <- & I). apply filter_In in I. destruct I as [I E].
    apply Nat.eqb_eq in E. destruct (end_good x I) as (G1 & G2 & G3 & _ & G4 & _). cbn. rewrite E in *. repeat apply conj; auto.
  - rewrite end_all, map_map. cbn. apply end_nodup.
Qed.
Lemma end_part : (forall v, part (sh (rc st)) v = replay P0 (rep (rc st)) v) ->
  (forall m, In m (moves_linear st) -> part (sh (rc st)) (m_u m) = Some (m_to m)) /\
  (forall v, ~ In v (map m_u (moves_linear st)) -> part (sh (rc st)) v = P0 v).
Proof using All.
  intros E. assert (PA : Permutation (moves_linear st) (accepted (rep (rc st)))) by (rewrite end_linear; apply end_acc).
  assert (N : NoDup (map m_u (accepted (rep (rc st))))) by (rewrite <- PA; apply end_nodup).
  destruct (replay_acc P0 (rep (rc st)) N) as [A1 A2]. split.
  - intros m I. rewrite E. apply A1. eapply Permutation_in; eauto.
  - intros v Hv. rewrite E. apply A2. intros I. apply Hv. eapply Permutation_in; [symmetry; apply Permutation_map; exact PA|exact I].
Qed.
Lemma end_rebalanced : (forall v, part (sh (rc st)) v = replay P0 (rep (rc st)) v) ->
  forall v, rebalanced k P0 (moves_by_part st) v = part (sh (rc st)) v.
Proof using All.
  intros E v. destruct (end_part E) as [A1 A2]. unfold rebalanced.
  set (pl := map (fun m => (im_node m, im_to m)) (all_reb k (moves_by_part st))).
  assert (P : Permutation pl (map (fun m => (m_u m, m_to m)) (moves_linear st))) by (unfold pl; rewrite end_all, map_map; apply Permutation_refl).
  assert (N : NoDup (map fst pl)) by (rewrite P, map_map; cbn; apply end_nodup).
  destruct (in_dec Nat.eq_dec v (map m_u (moves_linear st))) as [I|I].
  - apply in_map_iff in I. destruct I as (m & <- & I). rewrite (A1 m I). apply moves_in; [exact N|].
    eapply Permutation_in; [symmetry; exact P|]. apply in_map_iff. exists m. auto.
  - rewrite (A2 v I). apply moves_out. intros X. apply I. apply (Permutation_in _ (Permutation_map fst P)) in X. rewrite map_map in X. exact X.
Qed.
Lemma end_nov : 0 <= nov st /\ (nov st = 0 -> forall b, (b < k)%nat -> block_weight H (part (sh (rc st))) b <= L b).
Proof using All.
  pose proof (r_nov st R) as N. rewrite (end_nil subl eq_refl) in N. cbn [length] in N. split; [lia|]. intros Z b Hb.
  assert (O : ov st b = false).
  { destruct (ov st b) eqn:O; [|reflexivity]. exfalso.
    assert (I : In b (filter (ov st) (seq 0 k))) by (apply filter_In; split; [apply in_seq; lia|exact O]).
    destruct (filter (ov st) (seq 0 k)); [destruct I|cbn [length] in N; lia]. }
  pose proof (r_set st R b Hb O) as C. unfold cur in C. rewrite sumZ_zero in C; [lia|].
  intros i Hi. apply in_seq in Hi. rewrite (end_quiescent i) by lia. reflexivity.
Qed.
Lemma end_gid : (gid st <= length (nodes H))%nat.
Proof using All.
  rewrite <- (seq_length (gid st) 0), <- (Permutation_length end_ids), map_length, <- (map_length snd), <- (Permutation_length end_linear), <- (map_length m_u).
  apply NoDup_incl_length; [apply end_nodup|]. intros u I. apply in_map_iff in I. destruct I as (m & <- & I). apply (end_good m I).
Qed.
End Proofs.
