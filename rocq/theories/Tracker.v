(** * Node ownership and move numbering of parallel FM (C44, C45)
    fm_commons.h:47-160 (GlobalMoveTracker, NodeTracker) used as in localized_kway_fm_core.cpp:38-213,
    strategies/local_gain_cache_strategy.h:159-178 (reset) and multitry_kway_fm.cpp:268-271, global_rollback.cpp:188.

    Interleaving semantics: one step = one access to a shared variable (sequentially consistent; the relaxed loads
    of the code are not modelled as weaker).  Integers of type SearchID and MoveID are 32-bit: [wrap].
    The choice of the nodes (queue order, gains, hypergraph structure) is left to the environment: any thread
    may try to acquire any node at any time, pop any node of its queue, insert any popped node as a move. *)
From Coq Require Import List ZArith Lia Arith Bool.
From Verif Require Import Base Spec PHG PHGProofs Rollback RollbackProofs.
Import ListNotations.
Open Scope Z_scope.

Section Tracker.
Variable MAX : Z.   (** numeric_limits<uint32_t>::max() *)
Variable N : nat.   (** number of nodes = moveOrder.size() = searchOfNode.size() *)
Variable T : Z.     (** number of tasks started per round (multitry_kway_fm.cpp:129) *)
Definition wrap (x : Z) : Z := x mod (MAX + 1).

(** hypergraph_common.h:91-104; [None] in [order] stands for an entry not yet written *)
Record mv := mkMv { mv_node : nat; mv_from : nat; mv_to : nat }.

Inductive pc :=
| Idle
| Run                       (** in findMoves / internalFindMoves *)
| Loaded (u : nat) (v : Z)  (** tryAcquireNode after the load that returned v, which is inactive *)
| Fetched (id : Z) (m : mv) (** insertMove after fetch_add *)
| Ordered (id : Z) (m : mv) (** insertMove after writing moveOrder *)
| Releasing.                (** fm_strategy.reset() *)
Record thread := mkTh { sid : Z; pq : list nat; mvs : list nat; tpc : pc }.

Record st := mkSt {
  son : nat -> Z;           (** searchOfNode *)
  rel : Z;                  (** releasedMarker *)
  deact : Z;                (** deactivatedNodeMarker *)
  high : Z;                 (** highestActiveSearchID *)
  first : Z;                (** firstMoveID *)
  running : Z;              (** runningMoveID *)
  order : nat -> option mv; (** moveOrder *)
  ofnode : nat -> Z;        (** moveOfNode *)
  th : nat -> thread;
  inround : bool;           (** a round is in progress *)
  req : Z;                  (** max_num_searches of the last requestNewSearches *)
  nsearch : Z               (** number of searches started in this round *)
}.
Definition idle : thread := mkTh 0 [] [] Idle.
(** fm_commons.h:53-56, 110-116 *)
Definition init : st := mkSt (fun _ => 0) 1 2 2 1 1 (fun _ => None) (fun _ => 0) (fun _ => idle) false 0 0.

Definition setTh (s : st) (t : nat) (x : thread) : st :=
  mkSt (son s) (rel s) (deact s) (high s) (first s) (running s) (order s) (ofnode s) (upd (th s) t x) (inround s) (req s) (nsearch s).
Definition setSon (s : st) (u : nat) (v : Z) : st :=
  mkSt (upd (son s) u v) (rel s) (deact s) (high s) (first s) (running s) (order s) (ofnode s) (th s) (inround s) (req s) (nsearch s).
Definition withPc (x : thread) (p : pc) : thread := mkTh (sid x) (pq x) (mvs x) p.
Definition rmv (u : nat) (l : list nat) : list nat := filter (fun x => negb (Nat.eqb u x)) l.

(** Observable events. *)
Inductive event :=
| ERound                                 (** a new round starts *)
| EAcq (t : nat) (s : Z) (u : nat)       (** tryAcquireNode(u) of search s (thread t) returned true *)
| ERel (t : nat) (s : Z) (u : nat)       (** releaseNode(u) *)
| EDeact (t : nat) (s : Z) (u : nat)     (** deactivateNode(u) *)
| EIns (t : nat) (id : Z) (m : mv)       (** insertMove(m) obtained the id *)
| EReset.                                (** the moves of the round are forgotten (end of the rollback) *)

Definition isSearchInactive (s : st) (x : Z) : bool := x <? deact s.
Definition canNodeStartNewSearch (s : st) (u : nat) : bool := isSearchInactive s (son s u).
Definition isLocked (s : st) (u : nat) : bool := son s u =? deact s.
(** fm_commons.h:85-92 with [isValid] true for every inserted move (reverted entries: Rollback.v). *)
Definition wasNodeMovedInThisRound (s : st) (u : nat) : bool := (first s <=? ofnode s u) && (ofnode s u <? running s).
Definition numPerformedMoves (s : st) : Z := wrap (running s - first s).

(** requestNewSearches, fm_commons.h:149-158 (uint32 arithmetic). *)
Definition requestNewSearches (s : st) (m : Z) : st :=
  let ovf := wrap (MAX - m - 20) <=? high s in
  let son' := if ovf then fun _ => 0 else son s in
  let high' := wrap ((if ovf then 1 else high s) + 1) in
  mkSt son' (wrap (high' - 1)) high' high' (first s) (running s) (order s) (ofnode s) (th s) true m 0.
(** GlobalMoveTracker::reset, fm_commons.h:59-70 (size_t arithmetic). *)
Definition resetMoves (s : st) : st :=
  if MAX - Z.of_nat N - 20 <=? running s
  then mkSt (son s) (rel s) (deact s) (high s) 1 1 (order s) (fun _ => 0) (th s) false (req s) (nsearch s)
  else let r := wrap (running s + 1) in
       mkSt (son s) (rel s) (deact s) (high s) r r (order s) (ofnode s) (th s) false (req s) (nsearch s).

Inductive step : st -> list event -> st -> Prop :=
(** multitry_kway_fm.cpp:268-271; only between rounds, no search is running. *)
| s_round s m : inround s = false -> (forall t, tpc (th s t) = Idle) -> 0 <= m <= Z.of_nat N ->
    step s [ERound] (requestNewSearches s m)
(** global_rollback.cpp:188 after all tasks finished (multitry_kway_fm.cpp:130-166) *)
| s_reset s : inround s = true -> (forall t, tpc (th s t) = Idle) ->
    step s [EReset] (resetMoves s)
(** the same after an unconstrained round: the interleaving with the rebalancing moves (multitry_kway_fm.cpp:275-445) has rewritten the
    sequence, the number of moves and the index (Interleave.v) *)
| s_reset_unc s r o f : inround s = true -> (forall t, tpc (th s t) = Idle) -> first s <= r <= first s + Z.of_nat N -> (forall u, f u < r) ->
    step s [EReset] (resetMoves (mkSt (son s) (rel s) (deact s) (high s) (first s) r o f (th s) (inround s) (req s) (nsearch s)))
(** multitry_kway_fm.cpp:113-115: break if there is no border node *)
| s_break s : inround s = true -> nsearch s = 0 ->
    step s [] (mkSt (son s) (rel s) (deact s) (high s) (first s) (running s) (order s) (ofnode s) (th s) false (req s) (nsearch s))
(** localized_kway_fm_core.cpp:40-41.  A task continues only after a search that popped a seed
    (gain_cache_strategy.h findMoves), so at most req + T searches are started in a round. *)
| s_search s t : inround s = true -> tpc (th s t) = Idle -> nsearch s < req s + T ->
    let x := wrap (high s + 1) in
    step s [] (mkSt (son s) (rel s) (deact s) x (first s) (running s) (order s) (ofnode s)
                    (upd (th s) t (mkTh x [] [] Run)) (inround s) (req s) (nsearch s + 1))
(** tryAcquireNode, fm_commons.h:143-147: load, then compare-exchange *)
| s_load s t u : tpc (th s t) = Run -> (u < N)%nat ->
    step s [] (setTh s t (withPc (th s t) (if isSearchInactive s (son s u) then Loaded u (son s u) else Run)))
| s_cas_fail s t u v : tpc (th s t) = Loaded u v -> son s u <> v ->
    step s [] (setTh s t (withPc (th s t) Run))
| s_cas s t u v : tpc (th s t) = Loaded u v -> son s u = v ->
    (** the search inserts the node into its queue *)
    step s [EAcq t (sid (th s t)) u]
      (setTh (setSon s u (sid (th s t))) t (mkTh (sid (th s t)) (u :: pq (th s t)) (mvs (th s t)) Run))
(** localized_kway_fm_core.cpp:140-141: pop a node, deactivateNode *)
| s_deact s t u : tpc (th s t) = Run -> In u (pq (th s t)) ->
    step s [EDeact t (sid (th s t)) u]
      (setTh (setSon s u (deact s)) t (mkTh (sid (th s t)) (rmv u (pq (th s t))) (u :: mvs (th s t)) Run))
(** insertMove, fm_commons.h:72-78: three shared accesses *)
| s_fetch s t m : tpc (th s t) = Run -> In (mv_node m) (mvs (th s t)) ->
    step s [EIns t (running s) m]
      (mkSt (son s) (rel s) (deact s) (high s) (first s) (wrap (running s + 1)) (order s) (ofnode s)
        (upd (th s) t (mkTh (sid (th s t)) (pq (th s t)) (rmv (mv_node m) (mvs (th s t))) (Fetched (running s) m)))
        (inround s) (req s) (nsearch s))
| s_order s t id m : tpc (th s t) = Fetched id m ->
    step s [] (mkSt (son s) (rel s) (deact s) (high s) (first s) (running s)
        (upd (order s) (Z.to_nat (wrap (id - first s))) (Some m)) (ofnode s)
        (upd (th s) t (withPc (th s t) (Ordered id m))) (inround s) (req s) (nsearch s))
| s_ofnode s t id m : tpc (th s t) = Ordered id m ->
    step s [] (mkSt (son s) (rel s) (deact s) (high s) (first s) (running s) (order s) (upd (ofnode s) (mv_node m) id)
        (upd (th s) t (withPc (th s t) Run)) (inround s) (req s) (nsearch s))
(** the search stops; strategy reset() releases the nodes still queued (or keeps them if release_nodes is off) *)
| s_stop s t : tpc (th s t) = Run -> step s [] (setTh s t (withPc (th s t) Releasing))
| s_release s t u : tpc (th s t) = Releasing -> In u (pq (th s t)) ->
    step s [ERel t (sid (th s t)) u]
      (setTh (setSon s u (rel s)) t (mkTh (sid (th s t)) (rmv u (pq (th s t))) (mvs (th s t)) Releasing))
| s_end s t : tpc (th s t) = Releasing -> step s [] (setTh s t (mkTh (sid (th s t)) [] [] Idle))
(** global_rollback.cpp:163: no move to roll back, the move tracker is not reset ([f]: the index after the interleaving) *)
| s_empty s f : inround s = true -> (forall t, tpc (th s t) = Idle) -> running s = first s -> (forall u, f u < first s) ->
    step s [] (mkSt (son s) (rel s) (deact s) (high s) (first s) (running s) (order s) f (th s) false (req s) (nsearch s)).

(** Reachable states with the log of events, newest first. *)
Inductive reach : st -> list event -> Prop :=
| r_init : reach init []
| r_step s log ev s' : reach s log -> step s ev s' -> reach s' (ev ++ log).

(** ---- specification ---- *)
(** What has to be true of the history of one node: it is acquired only while nobody holds it and it was not
    deactivated in this round; only its holder releases or deactivates it. *)
Inductive owner := Free | Held (t : nat) (s : Z) | Dead.
Definition next (u : nat) (o : owner) (e : event) : option owner :=
  match e with
  | ERound => Some Free
  | EAcq t s v => if Nat.eqb u v then match o with Free => Some (Held t s) | _ => None end else Some o
  | ERel t s v => if Nat.eqb u v then match o with Held t' s' => if Nat.eqb t t' && (s =? s') then Some Free else None | _ => None end else Some o
  | EDeact t s v => if Nat.eqb u v then match o with Held t' s' => if Nat.eqb t t' && (s =? s') then Some Dead else None | _ => None end else Some o
  | EIns _ _ _ | EReset => Some o
  end.
Fixpoint status (u : nat) (log : list event) : option owner :=
  match log with [] => Some Free | e :: r => match status u r with Some o => next u o e | None => None end end.
(** The moves inserted in the current round in the order of their ids. *)
Fixpoint inserted (log : list event) : list (Z * mv) :=
  match log with
  | [] => []
  | EIns _ id m :: r => inserted r ++ [(id, m)]
  | EReset :: _ => []
  | _ :: r => inserted r
  end.
Fixpoint numbered (a : Z) (l : list (Z * mv)) : Prop :=
  match l with [] => True | (i, _) :: r => i = a /\ numbered (a + 1) r end.

(** ---- invariants ---- *)
Definition pend (p : pc) : option (Z * mv) := match p with Fetched i m | Ordered i m => Some (i, m) | _ => None end.
Record inv (s : st) (log : list event) : Prop := {
  i_deact : 1 <= rel s < deact s;
  i_high : deact s <= high s;
  i_hb : inround s = true -> high s = deact s + nsearch s /\ 0 <= nsearch s <= req s + T /\ deact s + req s + 20 <= MAX;
  i_hb2 : high s <= MAX;
  i_idle : inround s = false -> forall t, tpc (th s t) = Idle;
  i_son : forall u, 0 <= son s u <= high s;
  i_thidle : forall t, tpc (th s t) = Idle -> pq (th s t) = [] /\ mvs (th s t) = [];
  i_sid : forall t, tpc (th s t) <> Idle -> deact s < sid (th s t) <= high s;
  i_sidd : forall t t', t <> t' -> tpc (th s t) <> Idle -> tpc (th s t') <> Idle -> sid (th s t) <> sid (th s t');
  i_act : forall t, tpc (th s t) <> Idle -> 0 < nsearch s;
  i_load : forall t u v, tpc (th s t) = Loaded u v -> v < deact s /\ (u < N)%nat;
  i_own : forall u, exists o, status u log = Some o /\
    match o with
    | Free => son s u < deact s /\ forall t, ~ In u (pq (th s t))
    | Held t x => (u < N)%nat /\ son s u = x /\ deact s < x /\
        (forall t', t' <> t -> ~ In u (pq (th s t')) /\ (tpc (th s t') <> Idle -> sid (th s t') <> x)) /\
        (tpc (th s t) <> Idle -> sid (th s t) = x -> In u (pq (th s t))) /\
        (In u (pq (th s t)) -> sid (th s t) = x)
    | Dead => (u < N)%nat /\ son s u = deact s /\ forall t, ~ In u (pq (th s t))
    end;
  i_pqnd : forall t, NoDup (pq (th s t))
}.

Lemma in_rmv u v l : In u (rmv v l) <-> In u l /\ u <> v.
Proof. unfold rmv. rewrite filter_In. rewrite negb_true_iff, Nat.eqb_neq. intuition. Qed.
Lemma nd_rmv v l : NoDup l -> NoDup (rmv v l).
Proof. unfold rmv. apply NoDup_filter. Qed.

Hypothesis HN : Z.of_nat N + 23 <= MAX.
Hypothesis HT : 0 <= T <= 20.

Lemma wrap_id x : 0 <= x <= MAX -> wrap x = x.
Proof. intros. unfold wrap. apply Z.mod_small. lia. Qed.

Lemma inv_init : inv init [].
Proof.
  constructor; cbn; try lia; intros; try congruence; try tauto; try discriminate; try lia.
  - exists Free. cbn. split; [reflexivity|]. split; [lia|tauto].
  - constructor.
Qed.

Ltac th_cases s t t0 := destruct (Nat.eq_dec t0 t) as [?Et|?Nt]; [subst t0; rewrite ?upd_same in * | rewrite ?(upd_other (th s) t t0) in * by assumption].

(** Replacing a thread record by one with the same queue and search, still active. *)
Lemma inv_pc s log t p : inv s log -> tpc (th s t) <> Idle -> p <> Idle ->
  (forall u v, p = Loaded u v -> v < deact s /\ (u < N)%nat) ->
  inv (setTh s t (withPc (th s t) p)) log.
Proof.
  intros I A P L. destruct I. constructor; cbn [setTh son rel deact high th inround req nsearch]; auto.
  - intros Q. specialize (i_idle0 Q t). congruence.
  - intros t0 E. th_cases s t t0; cbn in *; [congruence|auto].
  - intros t0 E. th_cases s t t0; cbn in *; auto.
  - intros t0 t1 D E1 E2. th_cases s t t0; th_cases s t t1; cbn in *; auto; try congruence.
  - intros t0 E. th_cases s t t0; cbn in *; eauto.
  - intros t0 u v E. th_cases s t t0; cbn in *; eauto.
  - intros u. destruct (i_own0 u) as (o & So & Ho). exists o. split; [exact So|]. destruct o.
    + destruct Ho as [H1 H2]. split; [exact H1|]. intros t0. th_cases s t t0; cbn; auto.
    + destruct Ho as (H1 & H2 & H3 & H4 & H5 & H6). split; [exact H1|]. split; [exact H2|]. split; [exact H3|]. split; [|split].
      * intros t' D. specialize (H4 t' D). th_cases s t t'; cbn; auto. destruct H4. split; auto.
      * intros E1 E2. th_cases s t t0; cbn in *; auto.
      * intros E1. th_cases s t t0; cbn in *; auto.
    + destruct Ho as (H1 & H2 & H3). split; [exact H1|]. split; [exact H2|]. intros t0. th_cases s t t0; cbn; auto.
  - intros t0. th_cases s t t0; cbn; auto.
Qed.

(** Fields the invariant does not mention. *)
Lemma inv_frame s s' log : inv s log -> son s' = son s -> rel s' = rel s -> deact s' = deact s -> high s' = high s ->
  (forall t, pq (th s' t) = pq (th s t) /\ sid (th s' t) = sid (th s t) /\
     (tpc (th s' t) = tpc (th s t) \/ tpc (th s t) <> Idle /\ tpc (th s' t) <> Idle /\ (forall u v, tpc (th s' t) <> Loaded u v)) /\
     (mvs (th s t) = [] -> mvs (th s' t) = [])) ->
  inround s' = inround s -> req s' = req s -> nsearch s' = nsearch s -> inv s' log.
Proof.
  intros I E1 E2 E3 E4 ET E5 E6 E7.
  assert (EI : forall t, tpc (th s' t) = Idle <-> tpc (th s t) = Idle).
  { intros t. destruct (ET t) as (_ & _ & [Q|(Q1 & Q2 & _)] & _); [rewrite Q; tauto|tauto]. }
  assert (EQ : forall t, pq (th s' t) = pq (th s t)) by (intros t; apply ET).
  assert (ES : forall t, sid (th s' t) = sid (th s t)) by (intros t; apply ET).
  destruct I. constructor; rewrite ?E1, ?E2, ?E3, ?E4, ?E5, ?E6, ?E7; auto.
  - intros Q t. apply EI. auto.
  - intros t Q. apply EI in Q. destruct (i_thidle0 t Q). rewrite EQ. split; auto. apply ET; auto.
  - intros t Q. rewrite ES. apply i_sid0. rewrite <- EI; auto.
  - intros t t' D Q1 Q2. rewrite !ES. apply i_sidd0; auto; rewrite <- EI; auto.
  - intros t Q. apply (i_act0 t). rewrite <- EI; auto.
  - intros t u v Q. destruct (ET t) as (_ & _ & [Q'|(_ & _ & Q')] & _); [rewrite Q' in Q; eauto|exfalso; eapply Q'; eauto].
  - intros u. destruct (i_own0 u) as (o & So & Ho). exists o. split; [exact So|]. rewrite ?E1, ?E3. destruct o.
    + destruct Ho as [H1 H2]. split; [exact H1|]. intros t0. rewrite EQ; auto.
    + destruct Ho as (H1 & H2 & H3 & H4 & H5 & H6). repeat (split; [assumption|]). split; [|split].
      * intros t' D. specialize (H4 t' D). rewrite EQ, ES, EI. auto.
      * rewrite EQ, ES, EI. auto.
      * rewrite EQ, ES. auto.
    + destruct Ho as (H1 & H2 & H3). repeat (split; [assumption|]). intros. rewrite EQ; auto.
  - intros t. rewrite EQ; auto.
Qed.

Lemma status_skip u e log : (forall o, next u o e = Some o) -> status u (e :: log) = status u log.
Proof. intros E. cbn. destruct (status u log); auto. Qed.

(** Changing the owner of one node u by thread t. *)
Lemma inv_owner s log t u v x' e o' :
  inv s log -> tpc (th s t) <> Idle -> (u < N)%nat ->
  (forall w, w <> u -> forall o, next w o e = Some o) ->
  status u (e :: log) = Some o' ->
  sid x' = sid (th s t) -> tpc x' <> Idle -> (forall a b, tpc x' <> Loaded a b) ->
  (forall w, w <> u -> In w (pq x') <-> In w (pq (th s t))) -> NoDup (pq x') ->
  0 <= v <= high s ->
  (forall t', t' <> t -> ~ In u (pq (th s t'))) ->
  match o' with
  | Free => v < deact s /\ ~ In u (pq x')
  | Held t0 x => t0 = t /\ x = sid (th s t) /\ v = x /\ In u (pq x')
  | Dead => v = deact s /\ ~ In u (pq x')
  end ->
  inv (setTh (setSon s u v) t x') (e :: log).
Proof.
  intros I A UN Ne So Sx Px Lx Qx ND Vh Oth Ho.
  destruct I. constructor; cbn [setTh setSon son rel deact high th inround req nsearch]; auto.
  - intros Q. specialize (i_idle0 Q t). congruence.
  - intros w. destruct (Nat.eq_dec w u); [subst; rewrite upd_same; auto|rewrite upd_other by auto; auto].
  - intros t0 E. th_cases s t t0; cbn in *; [congruence|auto].
  - intros t0 E. th_cases s t t0; auto. rewrite Sx. auto.
  - intros t0 t1 D E1 E2. th_cases s t t0; th_cases s t t1; rewrite ?Sx; auto; try congruence.
  - intros t0 E. th_cases s t t0; cbn in *; eauto.
  - intros t0 a b E. th_cases s t t0; [exfalso; eapply Lx; eauto|eauto].
  - intros w. destruct (Nat.eq_dec w u) as [->|Dw].
    + exists o'. split; [exact So|]. rewrite upd_same. destruct o' as [|t0 x|].
      * destruct Ho as [H1 H2]. split; [exact H1|]. intros t0. th_cases s t t0; auto.
      * destruct Ho as (-> & -> & -> & H1). rewrite upd_same. split; [exact UN|]. split; [reflexivity|]. split; [apply i_sid0; auto|]. split; [|split].
        -- intros t' D. rewrite upd_other by auto. split; auto.
        -- auto.
        -- auto.
      * destruct Ho as [-> H2]. repeat (split; [auto|]). intros t0. th_cases s t t0; auto.
    + destruct (i_own0 w) as (o & Sw & Hw). exists o. split; [rewrite status_skip; auto|]. rewrite upd_other by auto. destruct o as [|t0 x|].
      * destruct Hw as [H1 H2]. split; [exact H1|]. intros t0. th_cases s t t0; auto. rewrite Qx; auto.
      * destruct Hw as (H1 & H2 & H3 & H4 & H5 & H6). repeat (split; [assumption|]). split; [|split].
        -- intros t' D. specialize (H4 t' D). th_cases s t t'; auto. destruct H4 as [H4 H4']. rewrite Qx by auto. rewrite Sx. split; auto.
        -- intros E1 E2. th_cases s t t0; auto. rewrite Qx by auto. rewrite Sx in E2. auto.
        -- intros E1. th_cases s t t0; auto. rewrite Qx in E1 by auto. rewrite Sx. auto.
      * destruct Hw as (H1 & H2 & H3). repeat (split; [assumption|]). intros t0. th_cases s t t0; auto. rewrite Qx; auto.
  - intros t0. th_cases s t t0; auto.
Qed.

(** A node in the queue of t is held by the search of t. *)
Lemma queue_held s log t u : inv s log -> In u (pq (th s t)) ->
  tpc (th s t) <> Idle /\ status u log = Some (Held t (sid (th s t))) /\ son s u = sid (th s t) /\ (u < N)%nat /\
  forall t', t' <> t -> ~ In u (pq (th s t')).
Proof.
  intros I Q. assert (A : tpc (th s t) <> Idle). { intros A. destruct (i_thidle _ _ I t A) as [E _]. rewrite E in Q. exact Q. }
  split; [exact A|]. destruct (i_own _ _ I u) as (o & So & Ho). destruct o as [|t0 x|].
  - destruct Ho as [_ Ho]. exfalso. eapply Ho; eauto.
  - destruct Ho as (H1 & H2 & H3 & H4 & H5 & H6). destruct (Nat.eq_dec t t0) as [<-|D].
    + specialize (H6 Q). rewrite H6. repeat (split; [assumption|]). intros t' D. apply H4; auto.
    + exfalso. destruct (H4 t D) as [H _]. auto.
  - destruct Ho as (_ & _ & Ho). exfalso. eapply Ho; eauto.
Qed.

Lemma inv_step s log ev s' : inv s log -> step s ev s' -> inv s' (ev ++ log).
Proof.
  intros I St. destruct St; cbn [app].
  - (* round *)
    rename H into Hi, H0 into Hidle, H1 into Hm. pose proof I as I0. destruct I.
    unfold requestNewSearches. rewrite (wrap_id (MAX - m - 20)) by lia.
    set (ovf := MAX - m - 20 <=? high s). 
    set (h := if ovf then 1 else high s).
    assert (Hh : 1 <= h /\ h + 1 + m + 20 <= MAX /\ forall u, 0 <= (if ovf then 0 else son s u) <= h).
    { unfold h. destruct ovf eqn:E; unfold ovf in E; split; try lia; split; try lia; intros u; specialize (i_son0 u); lia. }
    destruct Hh as (Hh1 & Hh2 & Hh3). rewrite (wrap_id (h + 1)) by lia. rewrite (wrap_id (h + 1 - 1)) by lia.
    assert (Hs : forall u, 0 <= (if ovf then fun _ : nat => 0 else son s) u <= h) by (intros u; specialize (Hh3 u); destruct ovf; auto).
    constructor; cbn [son rel deact high th inround req nsearch]; auto; try lia.
    + intros t Q. exfalso. auto.
    + intros t Q; exfalso; auto.
    + intros t u v Q. rewrite Hidle in Q. discriminate.
    + intros u. exists Free. split.
      * cbn. destruct (i_own0 u) as (o & -> & _). reflexivity.
      * split; [specialize (Hs u); lia|]. intros t Q. destruct (i_thidle0 t (Hidle t)) as [E _]. rewrite E in Q. exact Q.
  - (* reset *)
    assert (I' : inv (mkSt (son s) (rel s) (deact s) (high s) (first s) (running s) (order s) (ofnode s) (th s) false (req s) (nsearch s)) (EReset :: log)).
    { destruct I. constructor; cbn [son rel deact high th inround req nsearch]; auto; try discriminate. intros u.
      destruct (i_own0 u) as (o & So & Ho). exists o. split; [rewrite status_skip; auto|exact Ho]. }
    unfold resetMoves. destruct (_ <=? _); eapply inv_frame; try exact I'; try reflexivity; cbn; intros; auto.
  - (* reset after interleaving *)
    assert (I' : inv (mkSt (son s) (rel s) (deact s) (high s) (first s) (running s) (order s) (ofnode s) (th s) false (req s) (nsearch s)) (EReset :: log)).
    { destruct I. constructor; cbn [son rel deact high th inround req nsearch]; auto; try discriminate. intros u.
      destruct (i_own0 u) as (oo & So & Ho). exists oo. split; [rewrite status_skip; auto|exact Ho]. }
    unfold resetMoves. destruct (_ <=? _); eapply inv_frame; try exact I'; try reflexivity; cbn; intros; auto.
  - (* break *)
    assert (Hid : forall t, tpc (th s t) = Idle).
    { intros t. destruct (tpc (th s t)) eqn:E; auto; exfalso; assert (0 < nsearch s) by (apply (i_act _ _ I t); congruence); lia. }
    destruct I. constructor; cbn [son rel deact high th inround req nsearch]; auto; try discriminate.
  - (* search *)
    rename H into Hi, H0 into Ht, H1 into Hn. destruct (i_hb _ _ I Hi) as (Hb1 & Hb2 & Hb3).
    pose proof (i_high _ _ I). pose proof (i_deact _ _ I).
    assert (Ex : x = high s + 1) by (unfold x; apply wrap_id; lia). clearbody x. subst x.
    destruct (i_thidle _ _ I t Ht) as [Hq Hv]. destruct I.
    constructor; cbn [son rel deact high th inround req nsearch]; auto; try lia.
    + intros u. specialize (i_son0 u). lia.
    + intros t0 E. th_cases s t t0; cbn in *; [discriminate|auto].
    + intros t0 E. th_cases s t t0; cbn in *; [lia|]. specialize (i_sid0 t0 E). lia.
    + intros t0 t1 D E1 E2. th_cases s t t0; th_cases s t t1; cbn in *; auto; try congruence.
      * specialize (i_sid0 t1 E2). lia.
      * specialize (i_sid0 t0 E1). lia.
    + intros t0 u v E. th_cases s t t0; cbn in *; [discriminate|eauto].
    + intros u. destruct (i_own0 u) as (o & So & Ho). exists o. split; [exact So|]. destruct o.
      * destruct Ho as [H1 H2]. split; [exact H1|]. intros t0. th_cases s t t0; cbn; auto.
      * destruct Ho as (H1 & H2 & H3 & H4 & H5 & H6). repeat (split; [assumption|]). specialize (i_son0 u). split; [|split].
        -- intros t' D. specialize (H4 t' D). th_cases s t t'; cbn; auto. split; auto. intros _. lia.
        -- intros E1 E2. th_cases s t t0; cbn in *; auto. lia.
        -- intros E1. th_cases s t t0; cbn in *; auto. tauto.
      * destruct Ho as (H1 & H2 & H3). repeat (split; [assumption|]). intros t0. th_cases s t t0; cbn; auto.
    + intros t0. th_cases s t t0; cbn; auto. constructor.
  - (* load *)
    apply inv_pc; auto; try congruence.
    + destruct (isSearchInactive _ _); congruence.
    + intros u0 v E. unfold isSearchInactive in E. destruct (son s u <? deact s) eqn:F; inversion E; subst. split; [lia|assumption].
  - apply inv_pc; auto; congruence.
  - (* cas *)
    rename H into Ht, H0 into Hv. destruct (i_load _ _ I t u v Ht) as [Hl Hu].
    destruct (i_own _ _ I u) as (o & So & Ho).
    assert (A : tpc (th s t) <> Idle) by congruence.
    destruct o as [|t0 x|]; [|exfalso; destruct Ho as (_ & ? & ? & _); lia|exfalso; destruct Ho as (_ & ? & _); lia].
    destruct Ho as [Ho1 Ho2].
    eapply (inv_owner s log t u _ _ _ (Held t (sid (th s t)))); eauto; cbn [sid pq tpc]; try congruence.
    + intros w D o. cbn. replace (Nat.eqb w u) with false by (symmetry; apply Nat.eqb_neq; auto). reflexivity.
    + cbn. rewrite So. cbn. rewrite Nat.eqb_refl. reflexivity.
    + intros w D. cbn. intuition congruence.
    + constructor; [apply Ho2|apply (i_pqnd _ _ I)].
    + pose proof (i_sid _ _ I t A). pose proof (i_deact _ _ I). lia.
    + cbn. intuition.
  - (* deact *)
    destruct (queue_held _ _ _ _ I H0) as (A & So & Hs & Hu & Oth).
    eapply (inv_owner s log t u _ _ _ Dead); eauto; cbn [sid pq tpc]; try congruence.
    + intros w D o. cbn. replace (Nat.eqb w u) with false by (symmetry; apply Nat.eqb_neq; auto). reflexivity.
    + cbn. rewrite So. cbn. rewrite !Nat.eqb_refl, Z.eqb_refl. reflexivity.
    + intros w D. rewrite in_rmv. intuition.
    + apply nd_rmv. apply (i_pqnd _ _ I).
    + pose proof (i_high _ _ I). pose proof (i_deact _ _ I). lia.
    + cbn. split; auto. rewrite in_rmv. intuition.
  - (* fetch *)
    assert (I' : inv s (EIns t (running s) m :: log)).
    { destruct I. constructor; auto. intros u. destruct (i_own0 u) as (o & So & Ho). exists o. split; [rewrite status_skip; auto|exact Ho]. }
    eapply inv_frame; try exact I'; try reflexivity. intros t0. cbn [th]. th_cases s t t0; cbn.
    + repeat split; auto. right. repeat split; congruence. intros Q. rewrite Q in H0. destruct H0.
    + auto.
  - eapply inv_frame; try exact I; try reflexivity. intros t0. cbn [th]. th_cases s t t0; cbn; auto.
    repeat split; auto. right. repeat split; congruence.
  - eapply inv_frame; try exact I; try reflexivity. intros t0. cbn [th]. th_cases s t t0; cbn; auto.
    repeat split; auto. right. repeat split; congruence.
  - apply inv_pc; auto; congruence.
  - (* release *)
    destruct (queue_held _ _ _ _ I H0) as (A & So & Hs & Hu & Oth).
    pose proof (i_deact _ _ I). pose proof (i_high _ _ I).
    eapply (inv_owner s log t u _ _ _ Free); eauto; cbn [sid pq tpc]; try congruence; try lia.
    + intros w D o. cbn. replace (Nat.eqb w u) with false by (symmetry; apply Nat.eqb_neq; auto). reflexivity.
    + cbn. rewrite So. cbn. rewrite !Nat.eqb_refl, Z.eqb_refl. reflexivity.
    + intros w D. rewrite in_rmv. intuition.
    + apply nd_rmv. apply (i_pqnd _ _ I).
    + cbn. split; [lia|]. rewrite in_rmv. intuition.
  - (* end *)
    rename H into Ht. destruct I. constructor; cbn [setTh son rel deact high th inround req nsearch]; auto.
    + intros Q. specialize (i_idle0 Q t). congruence.
    + intros t0 E. th_cases s t t0; cbn in *; auto.
    + intros t0 E. th_cases s t t0; cbn in *; [congruence|auto].
    + intros t0 t1 D E1 E2. th_cases s t t0; th_cases s t t1; cbn in *; auto; try congruence.
    + intros t0 E. th_cases s t t0; cbn in *; [congruence|eauto].
    + intros t0 u v E. th_cases s t t0; cbn in *; [discriminate|eauto].
    + intros u. destruct (i_own0 u) as (o & So & Ho). exists o. split; [exact So|]. destruct o.
      * destruct Ho as [H1 H2]. split; [exact H1|]. intros t0. th_cases s t t0; cbn; auto.
      * destruct Ho as (H1 & H2 & H3 & H4 & H5 & H6). repeat (split; [assumption|]). split; [|split].
        -- intros t' D. specialize (H4 t' D). th_cases s t t'; cbn; auto.
        -- intros E1 E2. th_cases s t t0; cbn in *; auto; try congruence.
        -- intros E1. th_cases s t t0; cbn in *; auto; try tauto.
      * destruct Ho as (H1 & H2 & H3). repeat (split; [assumption|]). intros t0. th_cases s t t0; cbn; auto.
    + intros t0. th_cases s t t0; cbn; auto. constructor.
  - (* no move *)
    destruct I. constructor; cbn [son rel deact high th inround req nsearch]; auto; try discriminate.
Qed.

Lemma inv_reach s log : reach s log -> inv s log.
Proof. induction 1; [apply inv_init|eapply inv_step; eauto]. Qed.

(** ---- moves ---- *)
Definition insn (log : list event) : list nat := map (fun x => mv_node (snd x)) (inserted log).
Record inv2 (s : st) (log : list event) : Prop := {
  m_first : 1 <= first s /\ first s + Z.of_nat N + 20 <= MAX;
  m_run : running s = first s + Z.of_nat (length (inserted log));
  m_num : numbered (first s) (inserted log);
  m_nd : NoDup (insn log);
  m_dead : forall u, In u (insn log) -> status u log = Some Dead;
  m_empty : inround s = false \/ nsearch s = 0 -> inserted log = [];
  m_mvs : forall t u, In u (mvs (th s t)) -> status u log = Some Dead /\ ~ In u (insn log) /\
     forall t', t' <> t -> ~ In u (mvs (th s t'));
  m_pend : forall t i m, pend (tpc (th s t)) = Some (i, m) -> In (i, m) (inserted log);
  m_pendd : forall t t' i m i' m', t <> t' -> pend (tpc (th s t)) = Some (i, m) -> pend (tpc (th s t')) = Some (i', m') -> i <> i';
  m_order : forall i m, In (i, m) (inserted log) -> order s (Z.to_nat (i - first s)) = Some m \/ exists t, tpc (th s t) = Fetched i m;
  m_of : forall u,
     ((exists i m, In (i, m) (inserted log) /\ mv_node m = u /\ ofnode s u = i) \/
      (ofnode s u < first s /\ (~ In u (insn log) \/ exists t i m, pend (tpc (th s t)) = Some (i, m) /\ mv_node m = u)))
}.

Lemma numbered_app a l x m : numbered a l -> x = a + Z.of_nat (length l) -> numbered a (l ++ [(x, m)]).
Proof. clear HN HT MAX N T.
  revert a. induction l as [|[i m'] l IH]; cbn; intros a; [intros _ ->; lia|].
  intros [-> Hn] ->. split; [reflexivity|]. apply IH; auto. lia.
Qed.
Lemma numbered_range a l i m : numbered a l -> In (i, m) l -> a <= i < a + Z.of_nat (length l).
Proof. clear HN HT MAX N T.
  revert a. induction l as [|[j m'] l IH]; cbn; intros a; [tauto|]. intros [-> Hn] [E|Hi]; [injection E as -> ->; lia|].
  specialize (IH _ Hn Hi). lia.
Qed.
Lemma numbered_nth a l j i m : numbered a l -> nth_error l j = Some (i, m) -> i = a + Z.of_nat j.
Proof. clear HN HT MAX N T.
  revert a j. induction l as [|[x m'] l IH]; intros a [|j]; cbn; try discriminate.
  - intros [-> _] E. injection E as -> ->. lia.
  - intros [-> Hn] E. specialize (IH _ _ Hn E). lia.
Qed.
Lemma numbered_fun a l i m m' : numbered a l -> In (i, m) l -> In (i, m') l -> m = m'.
Proof. clear HN HT MAX N T.
  intros Hn H1 H2. apply In_nth_error in H1, H2. destruct H1 as [j1 H1], H2 as [j2 H2].
  pose proof (numbered_nth _ _ _ _ _ Hn H1). pose proof (numbered_nth _ _ _ _ _ Hn H2). assert (j1 = j2) by lia. subst. congruence.
Qed.
Lemma insn_in log i m : In (i, m) (inserted log) -> In (mv_node m) (insn log).
Proof. clear HN HT MAX N T. intros Q. unfold insn. change (mv_node m) with ((fun x : Z * mv => mv_node (snd x)) (i, m)). apply (in_map (fun x : Z * mv => mv_node (snd x))); auto. Qed.
Lemma insn_inv log u : In u (insn log) -> exists i m, In (i, m) (inserted log) /\ mv_node m = u.
Proof. clear HN HT MAX N T. unfold insn. rewrite in_map_iff. intros ([i m] & <- & Q). eauto. Qed.
Lemma insn_fun log i m i' m' : NoDup (insn log) -> In (i, m) (inserted log) -> In (i', m') (inserted log) -> mv_node m = mv_node m' -> i = i' /\ m = m'.
Proof. clear HN HT MAX N T.
  unfold insn. induction (inserted log) as [|[j x] l IH]; cbn; [tauto|]. intros ND H1 H2 E. inversion ND as [|? ? Hn ND']; subst.
  destruct H1 as [H1|H1], H2 as [H2|H2].
  - split; congruence.
  - injection H1 as -> ->. exfalso. apply Hn. rewrite E. apply (in_map (fun x : Z * mv => mv_node (snd x)) _ (i', m')); auto.
  - injection H2 as -> ->. exfalso. apply Hn. rewrite <- E. apply (in_map (fun x : Z * mv => mv_node (snd x)) _ (i, m)); auto.
  - auto.
Qed.

Lemma dead_keep u e log : e <> ERound -> status u log = Some Dead -> (exists o, status u (e :: log) = Some o) -> status u (e :: log) = Some Dead.
Proof. clear HN HT MAX N T.
  intros Ne E [o Eo]. cbn in *. rewrite E in *. destruct e; cbn in *; try congruence; destruct (Nat.eqb u u0); congruence.
Qed.

Lemma ins_bound s log : inv s log -> inv2 s log -> (length (inserted log) <= N)%nat.
Proof.
  intros I J. assert (Hl : (length (insn log) <= length (seq 0 N))%nat).
  { apply NoDup_incl_length; [apply (m_nd _ _ J)|]. intros u Q. apply (m_dead _ _ J) in Q. destruct (i_own _ _ I u) as (o & So & Ho).
    rewrite Q in So. injection So as <-. apply in_seq. lia. }
  unfold insn in Hl. rewrite map_length, seq_length in Hl. exact Hl.
Qed.

(** Steps that neither insert nor write moves: only the log of owners and the set [mvs] may change. *)
Lemma inv2_frame s s' log e : inv2 s log -> first s' = first s -> running s' = running s -> order s' = order s -> ofnode s' = ofnode s ->
  inserted (e ++ log) = inserted log ->
  (forall u, status u log = Some Dead -> status u (e ++ log) = Some Dead) ->
  (inround s' = false \/ nsearch s' = 0 -> inserted log = []) ->
  (forall t i m, tpc (th s t) = Fetched i m <-> tpc (th s' t) = Fetched i m) ->
  (forall t, pend (tpc (th s' t)) = pend (tpc (th s t))) ->
  (forall t u, In u (mvs (th s' t)) -> status u (e ++ log) = Some Dead /\ ~ In u (insn log) /\
     forall t', t' <> t -> ~ In u (mvs (th s' t'))) ->
  inv2 s' (e ++ log).
Proof.
  intros J E1 E2 E3 E4 E5 Hd He Hf Hp Hm.
  assert (E6 : insn (e ++ log) = insn log) by (unfold insn; rewrite E5; reflexivity).
  destruct J. constructor; rewrite ?E1, ?E2, ?E3, ?E4, ?E5, ?E6; auto.
  - intros t i m Q. rewrite Hp in Q. eauto.
  - intros t t' i m i' m' D Q1 Q2. rewrite Hp in Q1, Q2. eauto.
  - intros i m Q. destruct (m_order0 i m Q) as [|[t Ht]]; auto. right. exists t. apply Hf. exact Ht.
  - intros u. destruct (m_of0 u) as [A|(A & [B|(t & i & m & B1 & B2)])]; auto. right. split; auto. right. exists t, i, m. rewrite Hp. auto.
Qed.

Lemma inv2_init : inv2 init [].
Proof.
  constructor; cbn [first running inserted length numbered insn map status inround nsearch th init mvs idle In pend tpc order ofnode]; try lia; try tauto; try discriminate.
  - constructor.
Qed.

Local Opaque Z.add Z.sub Z.of_nat.
Lemma inv2_step s log ev s' : inv s log -> inv s' (ev ++ log) -> inv2 s log -> step s ev s' -> inv2 s' (ev ++ log).
Proof.
  intros I I' J St. assert (Hlen := ins_bound _ _ I J). pose proof (m_first _ _ J) as [Hf1 Hf2]. pose proof (m_run _ _ J) as Hrun.
  assert (Acc : forall u e r, ev = e :: r -> r = [] -> e <> ERound -> status u log = Some Dead -> status u (ev ++ log) = Some Dead).
  { intros u e r -> -> Ne E. cbn [app]. apply dead_keep; auto. destruct (i_own _ _ I' u) as (o & So & _). exists o; exact So. }
  destruct St.
  - (* round *)
    assert (E0 : inserted log = []) by (apply (m_empty _ _ J); auto).
    assert (En : insn log = []) by (unfold insn; rewrite E0; reflexivity).
    assert (Hm : forall t, mvs (th s t) = []) by (intros t; apply (i_thidle _ _ I t); auto).
    destruct J. cbn [app]. constructor; unfold requestNewSearches; cbn [first running th order ofnode inround nsearch]; auto.
    + intros u Q. unfold insn in Q. cbn in Q. rewrite E0 in Q. destruct Q.
    + intros t u Q. rewrite Hm in Q. destruct Q.
  - (* reset *)
    assert (Hm : forall t, mvs (th s t) = []) by (intros t; apply (i_thidle _ _ I t); auto).
    assert (Hp : forall t, pend (tpc (th s t)) = None) by (intros t; rewrite H0; reflexivity).
    assert (Ho : forall u, ofnode s u < running s).
    { intros u. destruct (m_of _ _ J u) as [(i & m & A1 & A2 & A3)|(A & _)]; [|lia].
      pose proof (numbered_range _ _ _ _ (m_num _ _ J) A1). lia. }
    cbn [app]. unfold resetMoves. destruct (MAX - Z.of_nat N - 20 <=? running s) eqn:E; constructor; cbn [first running th order ofnode inround nsearch inserted];
      try lia; auto; try (intros; unfold insn in *; cbn in *; tauto).
    + constructor.
    + intros t u Q. rewrite Hm in Q. destruct Q.
    + intros t i m Q. rewrite Hp in Q. discriminate.
    + intros t t' i m i' m' _ Q. rewrite Hp in Q. discriminate.
    + intros u. right. split; [lia|]. left. unfold insn. cbn. tauto.
    + rewrite wrap_id by lia. lia.
    + cbn. lia.
    + constructor.
    + intros t u Q. rewrite Hm in Q. destruct Q.
    + intros t i m Q. rewrite Hp in Q. discriminate.
    + intros t t' i m i' m' _ Q. rewrite Hp in Q. discriminate.
    + intros u. specialize (Ho u). right. rewrite wrap_id by lia. split; [lia|]. left. unfold insn. cbn. tauto.
  - (* reset after interleaving *)
    assert (Hm : forall t, mvs (th s t) = []) by (intros t; apply (i_thidle _ _ I t); auto).
    assert (Hp : forall t, pend (tpc (th s t)) = None) by (intros t; rewrite H0; reflexivity).
    cbn [app]. unfold resetMoves. cbn [running]. destruct (MAX - Z.of_nat N - 20 <=? r) eqn:E; constructor; cbn [first running th order ofnode inround nsearch inserted];
      try lia; auto; try (intros; unfold insn in *; cbn in *; tauto).
    + constructor.
    + intros t u Q. rewrite Hm in Q. destruct Q.
    + intros t i m Q. rewrite Hp in Q. discriminate.
    + intros t t' i m i' m' _ Q. rewrite Hp in Q. discriminate.
    + intros u. right. split; [lia|]. left. unfold insn. cbn. tauto.
    + rewrite wrap_id by lia. lia.
    + cbn. lia.
    + constructor.
    + intros t u Q. rewrite Hm in Q. destruct Q.
    + intros t i m Q. rewrite Hp in Q. discriminate.
    + intros t t' i m i' m' _ Q. rewrite Hp in Q. discriminate.
    + intros u. specialize (H2 u). right. rewrite wrap_id by lia. split; [lia|]. left. unfold insn. cbn. tauto.
  - (* break *)
    apply (inv2_frame s _ log []); auto; try reflexivity.
    + intros _. apply (m_empty _ _ J); auto.
    + cbn. apply (m_mvs _ _ J).
  - (* search *)
    apply (inv2_frame s _ log []); auto; try reflexivity; cbn [th inround nsearch app].
    + intros [Q|Q]; [congruence|]. exfalso. destruct (i_hb _ _ I H). lia.
    + intros t0 i m. th_cases s t t0; cbn; [rewrite H0; split; discriminate|tauto].
    + intros t0. th_cases s t t0; cbn; [rewrite H0; reflexivity|reflexivity].
    + intros t0 u Q. th_cases s t t0; cbn in *; [tauto|]. destruct (m_mvs _ _ J t0 u Q) as (A & B & C). repeat split; auto.
      intros t' D. th_cases s t t'; cbn; auto.
  - (* load *)
    apply (inv2_frame s _ log []); auto; try reflexivity; cbn [setTh th inround nsearch app].
    + apply (m_empty _ _ J).
    + intros t0 i m. th_cases s t t0; cbn; [rewrite H; destruct (isSearchInactive _ _); split; discriminate|tauto].
    + intros t0. th_cases s t t0; cbn; [rewrite H; destruct (isSearchInactive _ _); reflexivity|reflexivity].
    + intros t0 u0 Q. assert (Q' : In u0 (mvs (th s t0))) by (th_cases s t t0; auto).
      destruct (m_mvs _ _ J t0 u0 Q') as (A & B & C). repeat split; auto. intros t' D. specialize (C t' D). th_cases s t t'; auto.
  - (* cas_fail *)
    apply (inv2_frame s _ log []); auto; try reflexivity; cbn [setTh th inround nsearch app].
    + apply (m_empty _ _ J).
    + intros t0 i m. th_cases s t t0; cbn; [rewrite H; split; discriminate|tauto].
    + intros t0. th_cases s t t0; cbn; [rewrite H; reflexivity|reflexivity].
    + intros t0 u0 Q. assert (Q' : In u0 (mvs (th s t0))) by (th_cases s t t0; auto).
      destruct (m_mvs _ _ J t0 u0 Q') as (A & B & C). repeat split; auto. intros t' D. specialize (C t' D). th_cases s t t'; auto.
  - (* cas *)
    assert (Hd : forall w, status w log = Some Dead -> status w ([EAcq t (sid (th s t)) u] ++ log) = Some Dead) by (intros w; eapply Acc; try reflexivity; discriminate).
    eapply (inv2_frame s _ log [_]); auto; try reflexivity; cbn [setTh setSon th inround nsearch].
    + apply (m_empty _ _ J).
    + intros t0 i m. th_cases s t t0; cbn; [rewrite H; split; discriminate|tauto].
    + intros t0. th_cases s t t0; cbn; [rewrite H; reflexivity|reflexivity].
    + intros t0 u0 Q. assert (Q' : In u0 (mvs (th s t0))) by (th_cases s t t0; auto).
      destruct (m_mvs _ _ J t0 u0 Q') as (A & B & C). repeat split; auto. intros t' D. specialize (C t' D). th_cases s t t'; auto.
  - (* deact *)
    assert (Hd : forall w, status w log = Some Dead -> status w ([EDeact t (sid (th s t)) u] ++ log) = Some Dead) by (intros w; eapply Acc; try reflexivity; discriminate).
    destruct (queue_held _ _ _ _ I H0) as (A & So & Hs & Hu & Oth).
    assert (Su : status u ([EDeact t (sid (th s t)) u] ++ log) = Some Dead).
    { cbn. rewrite So. cbn. rewrite !Nat.eqb_refl, Z.eqb_refl. reflexivity. }
    assert (Nu : ~ In u (insn log)) by (intros Q; apply (m_dead _ _ J) in Q; congruence).
    eapply (inv2_frame s _ log [_]); auto; try reflexivity; cbn [setTh setSon th inround nsearch].
    + apply (m_empty _ _ J).
    + intros t0 i m. th_cases s t t0; cbn; [rewrite H; split; discriminate|tauto].
    + intros t0. th_cases s t t0; cbn; [rewrite H; reflexivity|reflexivity].
    + intros t0 u0 Q. destruct (Nat.eq_dec u0 u) as [->|Du].
      * split; [exact Su|]. split; [exact Nu|]. intros t' D Q'. th_cases s t t'; cbn in *.
        -- rewrite upd_other in Q by auto. apply (m_mvs _ _ J) in Q. destruct Q. congruence.
        -- apply (m_mvs _ _ J) in Q'. destruct Q'. congruence.
      * assert (Q' : In u0 (mvs (th s t0))). { th_cases s t t0; auto. cbn in Q. destruct Q; [congruence|auto]. }
        destruct (m_mvs _ _ J t0 u0 Q') as (A1 & B & C). repeat split; auto. intros t' D. specialize (C t' D). th_cases s t t'; auto.
        cbn. intros [|]; [congruence|auto].
  - (* fetch *)
    assert (Hd : forall w, status w log = Some Dead -> status w ([EIns t (running s) m] ++ log) = Some Dead) by (intros w; eapply Acc; try reflexivity; discriminate).
    destruct (m_mvs _ _ J t _ H0) as (Sd & Ni & Oth).
    assert (Hr : inround s = true).
    { destruct (inround s) eqn:E; auto. pose proof (i_idle _ _ I E t). congruence. }
    assert (Hl : (length (inserted log) < N)%nat).
    { assert (Hl : (length (mv_node m :: insn log) <= length (seq 0 N))%nat).
      { apply NoDup_incl_length; [constructor; [exact Ni|apply (m_nd _ _ J)]|]. intros w Q.
        assert (status w log = Some Dead) by (destruct Q as [<-|Q]; [auto|apply (m_dead _ _ J); auto]).
        destruct (i_own _ _ I w) as (o & So & Ho). rewrite H1 in So. injection So as <-. apply in_seq. lia. }
      unfold insn in Hl. cbn in Hl. rewrite map_length, seq_length in Hl. lia. }
    assert (Ei : inserted ([EIns t (running s) m] ++ log) = inserted log ++ [(running s, m)]) by reflexivity.
    assert (En : insn ([EIns t (running s) m] ++ log) = insn log ++ [mv_node m]) by (unfold insn; rewrite Ei, map_app; reflexivity).
    constructor; rewrite ?Ei, ?En; cbn [first running th order ofnode inround nsearch]; auto.
    + rewrite wrap_id by lia. rewrite app_length; cbn [length]. lia.
    + apply numbered_app; auto. apply (m_num _ _ J).
    + apply NoDup_app_; [apply (m_nd _ _ J)|constructor; [intros []|constructor]|]. intros x Q [<-|[]]. auto.
    + intros u Q. apply in_app_or in Q. apply Hd. destruct Q as [Q|[<-|[]]]; [apply (m_dead _ _ J); auto|auto].
    + intros [Q|Q]; [congruence|]. exfalso. assert (0 < nsearch s) by (apply (i_act _ _ I t); congruence). lia.
    + intros t0 u Q. assert (Q' : In u (mvs (th s t0)) /\ u <> mv_node m).
      { th_cases s t t0; cbn in *; [apply in_rmv in Q; auto|]. split; auto. intros ->. eapply Oth; eauto. }
      destruct Q' as [Q1 Q2]. destruct (m_mvs _ _ J t0 u Q1) as (A & B & C). split; [auto|]. split.
      * intros X. apply in_app_or in X. destruct X as [X|[X|[]]]; [auto|congruence].
      * intros t' D. specialize (C t' D). th_cases s t t'; auto. cbn. rewrite in_rmv. tauto.
    + intros t0 i m' Q. apply in_or_app. th_cases s t t0; cbn in *.
      * injection Q as <- <-. right. left. reflexivity.
      * left. eapply (m_pend _ _ J); eauto.
    + intros t0 t1 i m1 i' m1' D Q1 Q2. assert (Lt : forall t2 j m2, pend (tpc (th s t2)) = Some (j, m2) -> j < running s).
      { intros t2 j m2 Q. pose proof (numbered_range _ _ _ _ (m_num _ _ J) (m_pend _ _ J _ _ _ Q)). lia. }
      th_cases s t t0; th_cases s t t1; cbn in *; try congruence.
      * injection Q1 as <- <-. specialize (Lt _ _ _ Q2). lia.
      * injection Q2 as <- <-. specialize (Lt _ _ _ Q1). lia.
      * eapply (m_pendd _ _ J t0 t1); eauto.
    + intros i m' Q. apply in_app_or in Q. destruct Q as [Q|[Q|[]]].
      * destruct (m_order _ _ J i m' Q) as [|[t0 Ht]]; auto. right. exists t0. th_cases s t t0; auto. congruence.
      * injection Q as <- <-. right. exists t. rewrite upd_same. reflexivity.
    + intros u. destruct (m_of _ _ J u) as [(i & m' & A1 & A2 & A3)|(A & B)].
      * left. exists i, m'. rewrite in_app_iff. auto.
      * right. split; auto. destruct (Nat.eq_dec u (mv_node m)) as [->|Du].
        -- right. exists t, (running s), m. rewrite upd_same. auto.
        -- destruct B as [B|(t0 & i & m' & B1 & B2)].
           ++ left. rewrite in_app_iff. cbn. intuition.
           ++ right. exists t0, i, m'. split; auto. th_cases s t t0; auto. exfalso. rewrite H in B1. discriminate.
  - (* order *)
    pose proof (m_pend _ _ J t id m ltac:(rewrite H; reflexivity)) as Hp.
    pose proof (numbered_range _ _ _ _ (m_num _ _ J) Hp) as Hr. rewrite (wrap_id (id - first s)) by lia.
    pose proof J as J0. destruct J. cbn [app]. constructor; cbn [first running th order ofnode inround nsearch]; auto.
    + intros t0 u Q. assert (Q' : In u (mvs (th s t0))) by (th_cases s t t0; auto).
      destruct (m_mvs0 t0 u Q') as (A & B & C). repeat split; auto. intros t' D. specialize (C t' D). th_cases s t t'; auto.
    + intros t0 i m' Q. apply (m_pend0 t0). th_cases s t t0; auto. rewrite H. exact Q.
    + intros t0 t1 i m1 i' m1' D Q1 Q2. apply (m_pendd0 t0 t1 i m1 i' m1'); auto.
      * th_cases s t t0; auto. rewrite H. exact Q1.
      * th_cases s t t1; auto. rewrite H. exact Q2.
    + intros i m' Q. pose proof (numbered_range _ _ _ _ m_num0 Q) as Hr'.
      destruct (Z.eq_dec i id) as [->|Di].
      * left. rewrite upd_same. f_equal. eapply numbered_fun; eauto.
      * rewrite upd_other by lia. destruct (m_order0 i m' Q) as [|[t0 Ht]]; auto. right. exists t0. th_cases s t t0; auto. congruence.
    + intros u. destruct (m_of0 u) as [A|(A & [B|(t0 & i & m' & B1 & B2)])]; auto.
      right. split; auto. right. exists t0, i, m'. split; auto. th_cases s t t0; auto. rewrite H in B1. exact B1.
  - (* ofnode *)
    pose proof (m_pend _ _ J t id m ltac:(rewrite H; reflexivity)) as Hp.
    pose proof (numbered_range _ _ _ _ (m_num _ _ J) Hp) as Hr.
    pose proof J as J0. destruct J. cbn [app]. constructor; cbn [first running th order ofnode inround nsearch]; auto.
    + intros t0 u Q. assert (Q' : In u (mvs (th s t0))) by (th_cases s t t0; auto).
      destruct (m_mvs0 t0 u Q') as (A & B & C). repeat split; auto. intros t' D. specialize (C t' D). th_cases s t t'; auto.
    + intros t0 i m' Q. apply (m_pend0 t0). th_cases s t t0; auto. discriminate.
    + intros t0 t1 i m1 i' m1' D Q1 Q2. apply (m_pendd0 t0 t1 i m1 i' m1'); auto.
      * th_cases s t t0; auto. discriminate.
      * th_cases s t t1; auto. discriminate.
    + intros i m' Q. destruct (m_order0 i m' Q) as [|[t0 Ht]]; auto. right. exists t0. th_cases s t t0; auto. congruence.
    + intros u. destruct (Nat.eq_dec u (mv_node m)) as [->|Du].
      * rewrite upd_same. left. exists id, m. auto.
      * rewrite upd_other by auto. destruct (m_of0 u) as [A|(A & [B|(t0 & i & m' & B1 & B2)])]; auto.
        right. split; auto. right. exists t0, i, m'. split; auto. th_cases s t t0; auto. rewrite H in B1. cbn in B1. exfalso. congruence.
  - (* stop *)
    apply (inv2_frame s _ log []); auto; try reflexivity; cbn [setTh th inround nsearch app].
    + apply (m_empty _ _ J).
    + intros t0 i m. th_cases s t t0; cbn; [rewrite H; split; discriminate|tauto].
    + intros t0. th_cases s t t0; cbn; [rewrite H; reflexivity|reflexivity].
    + intros t0 u0 Q. assert (Q' : In u0 (mvs (th s t0))) by (th_cases s t t0; auto).
      destruct (m_mvs _ _ J t0 u0 Q') as (A & B & C). repeat split; auto. intros t' D. specialize (C t' D). th_cases s t t'; auto.
  - (* release *)
    assert (Hd : forall w, status w log = Some Dead -> status w ([ERel t (sid (th s t)) u] ++ log) = Some Dead) by (intros w; eapply Acc; try reflexivity; discriminate).
    eapply (inv2_frame s _ log [_]); auto; try reflexivity; cbn [setTh setSon th inround nsearch].
    + apply (m_empty _ _ J).
    + intros t0 i m. th_cases s t t0; cbn; [rewrite H; split; discriminate|tauto].
    + intros t0. th_cases s t t0; cbn; [rewrite H; reflexivity|reflexivity].
    + intros t0 u0 Q. assert (Q' : In u0 (mvs (th s t0))) by (th_cases s t t0; auto).
      destruct (m_mvs _ _ J t0 u0 Q') as (A & B & C). repeat split; auto. intros t' D. specialize (C t' D). th_cases s t t'; auto.
  - (* end *)
    apply (inv2_frame s _ log []); auto; try reflexivity; cbn [setTh th inround nsearch app].
    + apply (m_empty _ _ J).
    + intros t0 i m. th_cases s t t0; cbn; [rewrite H; split; discriminate|tauto].
    + intros t0. th_cases s t t0; cbn; [rewrite H; reflexivity|reflexivity].
    + intros t0 u0 Q. assert (Q' : In u0 (mvs (th s t0))) by (th_cases s t t0; auto; destruct Q).
      destruct (m_mvs _ _ J t0 u0 Q') as (A & B & C). repeat split; auto. intros t' D. specialize (C t' D). th_cases s t t'; auto.
  - (* no move *)
    assert (Hm : forall t, mvs (th s t) = []) by (intros t; apply (i_thidle _ _ I t); auto).
    assert (Hp : forall t, pend (tpc (th s t)) = None) by (intros t; rewrite H0; reflexivity).
    assert (E : inserted log = []) by (pose proof (m_run _ _ J); destruct (inserted log); [reflexivity|cbn [length] in *; lia]).
    destruct J. constructor; cbn [app first running th order ofnode inround nsearch]; auto.
    intros u. right. split; [apply H2|]. left. unfold insn. rewrite E. tauto.
Qed.

Lemma inv2_reach s log : reach s log -> inv2 s log.
Proof.
  induction 1; [apply inv2_init|]. eapply inv2_step; eauto; [apply inv_reach; auto|]. apply inv_reach. econstructor; eauto.
Qed.

(** C44: the history of every node is a legal ownership history, searches running at the same time have different
    ids, and what the tracker reports about a node is its state in that history. *)
Theorem C44_single_owner s log : reach s log ->
  (forall t t', t <> t' -> tpc (th s t) <> Idle -> tpc (th s t') <> Idle -> sid (th s t) <> sid (th s t')) /\
  forall u, exists o, status u log = Some o /\
    (canNodeStartNewSearch s u = true <-> o = Free) /\
    (isLocked s u = true <-> o = Dead) /\
    (forall t, tpc (th s t) <> Idle -> (son s u = sid (th s t) <-> o = Held t (sid (th s t)))) /\
    (forall t, tpc (th s t) <> Idle -> (son s u = sid (th s t) <-> In u (pq (th s t)))).
Proof.
  intros R. apply inv_reach in R. split; [apply (i_sidd _ _ R)|].
  intros u. destruct (i_own _ _ R u) as (o & So & Ho). exists o. split; [exact So|].
  pose proof (i_deact _ _ R). unfold canNodeStartNewSearch, isSearchInactive, isLocked. rewrite Z.ltb_lt, Z.eqb_eq.
  assert (Hq : forall t, In u (pq (th s t)) -> tpc (th s t) <> Idle /\ o = Held t (sid (th s t)) /\ son s u = sid (th s t)).
  { intros t Q. destruct (queue_held _ _ _ _ R Q) as (A & B & C & _). split; [auto|]. split; [congruence|auto]. }
  pose proof (i_sid _ _ R) as Hs.
  destruct o as [|t0 x|].
  - destruct Ho as [H1 H2]. split; [tauto|]. split; [split; [lia|discriminate]|]. split.
    + intros t A. specialize (Hs t A). split; [lia|discriminate].
    + intros t A. specialize (Hs t A). split; [lia|]. intros Q; exfalso; eapply H2; eauto.
  - destruct Ho as (H1 & H2 & H3 & H4 & H5 & H6). split; [split; [lia|discriminate]|]. split; [split; [lia|discriminate]|]. split.
    + intros t A. split.
      * intros E. destruct (Nat.eq_dec t t0) as [<-|D]; [congruence|]. destruct (H4 t D) as [_ H7]. specialize (H7 A). congruence.
      * intros E. injection E as -> E. congruence.
    + intros t A. split.
      * intros E. destruct (Nat.eq_dec t t0) as [<-|D]; [apply H5; congruence|]. destruct (H4 t D) as [_ H7]. specialize (H7 A). congruence.
      * intros Q. apply Hq in Q. apply Q.
  - destruct Ho as (H1 & H2 & H3). split; [split; [lia|discriminate]|]. split; [tauto|]. split.
    + intros t A. specialize (Hs t A). split; [lia|discriminate].
    + intros t A. specialize (Hs t A). split; [lia|]. intros Q; exfalso; eapply H3; eauto.
Qed.

(** C45: the moves of the round have the consecutive ids first, first+1, ..., different nodes, no id overflows;
    and whenever no insertion is in progress the tables describe exactly these moves. *)
Theorem C45_move_ids s log : reach s log ->
  let ms := inserted log in
  numbered (first s) ms /\ 1 <= first s /\ running s = first s + Z.of_nat (length ms) /\ running s <= MAX /\
  NoDup (map (fun x => mv_node (snd x)) ms) /\ (length ms <= N)%nat /\
  ((forall t, pend (tpc (th s t)) = None) ->
     numPerformedMoves s = Z.of_nat (length ms) /\
     (forall j id m, nth_error ms j = Some (id, m) -> order s j = Some m /\ ofnode s (mv_node m) = id) /\
     forall u, wasNodeMovedInThisRound s u = true <-> exists id m, In (id, m) ms /\ mv_node m = u).
Proof.
  intros R ms. pose proof (inv_reach _ _ R) as I. pose proof (inv2_reach _ _ R) as J. pose proof (ins_bound _ _ I J) as Hl. fold ms in Hl.
  destruct J. fold ms in m_run0, m_num0, m_pend0, m_order0, m_of0, m_empty0. split; [exact m_num0|]. split; [lia|]. split; [exact m_run0|]. split; [lia|].
  split; [exact m_nd0|]. split; [exact Hl|]. intros Q.
  assert (Hof : forall i m, In (i, m) ms -> ofnode s (mv_node m) = i).
  { intros i m Hi. destruct (m_of0 (mv_node m)) as [(i' & m' & A1 & A2 & A3)|(_ & [B|(t & i' & m' & B & _)])].
    - destruct (insn_fun _ _ _ _ _ m_nd0 Hi A1 (eq_sym A2)) as [-> ->]. exact A3.
    - exfalso. apply B. eapply insn_in; eauto.
    - rewrite Q in B. discriminate. }
  split; [|split].
  - unfold numPerformedMoves. rewrite wrap_id; lia.
  - intros j id m Hj. pose proof (nth_error_In _ _ Hj) as Hi. split; [|auto].
    pose proof (numbered_nth _ _ _ _ _ m_num0 Hj). destruct (m_order0 id m Hi) as [E|[t Ht]].
    + replace j with (Z.to_nat (id - first s)) by lia. exact E.
    + specialize (Q t). rewrite Ht in Q. discriminate.
  - intros u. unfold wasNodeMovedInThisRound. rewrite andb_true_iff, Z.leb_le, Z.ltb_lt. split.
    + intros [E1 E2]. destruct (m_of0 u) as [(i & m & A1 & A2 & A3)|(A & _)]; [eauto|lia].
    + intros (i & m & Hi & <-). rewrite (Hof _ _ Hi). pose proof (numbered_range _ _ _ _ m_num0 Hi). lia.
Qed.
End Tracker.

Local Transparent Z.add Z.sub Z.of_nat.

(** The tracker handed to the rollback (Rollback.v) after a round: if the moves inserted in the round are legal
    moves of the partition at the start of the round then the rollback theorems' precondition holds. *)
Definition tracker_of (s : st) : tracker :=
  mkT (first s) (map (fun j => match order s j with Some m => Some (mkRM (mv_node m) (mv_from m) (mv_to m)) | None => None end)
                           (seq 0 (Z.to_nat (running s - first s)))) (ofnode s).
Theorem C45_round_ok N T (H : hypergraph) k P0 s log : Z.of_nat N + 23 <= MAXID -> 0 <= T <= 20 ->
  reach MAXID N T s log -> (forall t, pend (tpc (th s t)) = None) ->
  (forall id m, In (id, m) (inserted log) -> In (mv_node m) (nodes H) /\ P0 (mv_node m) = Some (mv_from m) /\
      mv_from m <> mv_to m /\ (mv_to m < k)%nat) ->
  round_ok H k P0 (tracker_of s) /\
  valid_moves (t_order (tracker_of s)) = map (fun x => (mv_node (snd x), mv_to (snd x))) (inserted log).
Proof.
  intros HN HT R Q L. destruct (C45_move_ids MAXID N T HN HT s log R) as (A1 & A2 & A3 & A4 & A5 & A6 & A7).
  destruct (A7 Q) as (B1 & B2 & B3). clear A7.
  assert (Hrun : Z.to_nat (running s - first s) = length (inserted log)) by lia.
  assert (Hord : t_order (tracker_of s) = map (fun x => Some (mkRM (mv_node (snd x)) (mv_from (snd x)) (mv_to (snd x)))) (inserted log)).
  { cbn [tracker_of t_order]. rewrite Hrun. apply nth_ext with (d := None) (d' := None); [rewrite !map_length, seq_length; reflexivity|].
    intros n Hn. rewrite map_length, seq_length in Hn.
    destruct (nth_error (inserted log) n) as [[id m]|] eqn:E; [|apply nth_error_None in E; lia].
    destruct (B2 _ _ _ E) as [C1 C2].
    erewrite nth_error_nth; [|erewrite map_nth_error; [reflexivity|]; rewrite nth_error_nth' with (d := 0%nat) by (rewrite seq_length; auto); rewrite seq_nth by auto; reflexivity].
    cbn [plus]. rewrite C1. symmetry. erewrite nth_error_nth; [|erewrite map_nth_error; [reflexivity|exact E]]. reflexivity. }
  split.
  - constructor.
    + exact A2.
    + unfold numMoves. rewrite Hord, map_length. cbn [tracker_of t_first]. lia.
    + intros i m E. rewrite Hord in E. rewrite nth_error_map in E.
      destruct (nth_error (inserted log) i) as [[id m']|] eqn:E'; [|discriminate]. cbn in E. injection E as <-. cbn [r_node r_from r_to].
      destruct (L id m' (nth_error_In _ _ E')) as (L1 & L2 & L3 & L4). repeat (split; [assumption|]).
      cbn [tracker_of t_of t_first]. destruct (B2 _ _ _ E') as [_ ->]. eapply numbered_nth; eauto.
    + intros u id m E. destruct (move_of_inv _ _ _ _ E) as (i & I1 & I2 & I3 & I4). rewrite Hord, nth_error_map in I3.
      destruct (nth_error (inserted log) i) as [[id' m']|] eqn:E'; [|discriminate]. cbn in I3. injection I3 as <-. cbn [r_node].
      cbn [tracker_of t_of t_first] in *. pose proof (numbered_nth _ _ _ _ _ A1 E') as Hid.
      assert (Hw : wasNodeMovedInThisRound s u = true).
      { unfold wasNodeMovedInThisRound. unfold numMoves in I1. rewrite Hord, map_length in I1. lia. }
      apply B3 in Hw. destruct Hw as (id2 & m2 & W1 & W2). apply In_nth_error in W1. destruct W1 as [i2 W1].
      destruct (B2 _ _ _ W1) as [_ W3]. rewrite W2 in W3. pose proof (numbered_nth _ _ _ _ _ A1 W1).
      assert (i2 = i) by lia. subst i2. congruence.
  - rewrite Hord. unfold valid_moves. rewrite flat_map_concat_map, map_map. rewrite <- flat_map_concat_map.
    induction (inserted log) as [|x l IH]; [reflexivity|]. cbn. f_equal.
Qed.

(** Finding: the reserve of 20 ids in requestNewSearches is exceeded when more than 20 tasks (threads) each start
    a search that finds no seed.  Then, after about 2^32 searches, an id wraps to 0, counts as inactive and a node
    is acquired by two searches in one round. *)
Section Wrap.
Variables (MAX : Z) (N : nat) (T : Z).
Hypotheses (HM : Z.of_nat N + 23 <= MAX) (HT : 21 <= T) (HN : (1 <= N)%nat).
Let step := step MAX N T.
Let reach := reach MAX N T.

Lemma wrap_small x : 0 <= x <= MAX -> wrap MAX x = x.
Proof. intros. unfold wrap. apply Z.mod_small. lia. Qed.

Lemma many_rounds n : 2 + Z.of_nat n <= MAX - 21 -> exists s log,
  reach s log /\ inround s = false /\ (forall t, th s t = idle) /\ high s = 2 + Z.of_nat n /\ son s 0%nat = 0 /\ status 0 log = Some Free.
Proof.
  induction n as [|n IH]; intros B.
  - exists init, []. repeat split; try reflexivity. constructor.
  - destruct IH as (s & log & R & A1 & A2 & A3 & A4 & A5); [lia|].
    assert (R1 : reach (requestNewSearches MAX s 0) ([ERound] ++ log)).
    { econstructor; [exact R|]. apply s_round; auto; [intros t; rewrite A2; reflexivity|lia]. }
    assert (E1 : wrap MAX (MAX - 0 - 20) <=? high s = false) by (rewrite wrap_small by lia; lia).
    eexists _, ([] ++ [ERound] ++ log). split; [econstructor; [exact R1|]; apply s_break|]; try reflexivity.
    unfold requestNewSearches. rewrite E1. cbn [inround th high son req nsearch].
    repeat split; auto.
    + rewrite wrap_small; lia.
    + cbn. rewrite A5. reflexivity.
Qed.

Lemma many_searches j : (j <= 21)%nat -> exists s log,
  reach s log /\ inround s = true /\ req s = 0 /\ nsearch s = Z.of_nat j /\ deact s = MAX - 20 /\ son s 0%nat = 0 /\ status 0 log = Some Free /\
  high s = wrap MAX (MAX - 20 + Z.of_nat j) /\
  (forall t, (j <= t)%nat -> tpc (th s t) = Idle) /\
  (forall t, (t < j)%nat -> th s t = mkTh (wrap MAX (MAX - 20 + Z.of_nat (S t))) [] [] Run).
Proof.
  induction j as [|j IH]; intros B.
  - destruct (many_rounds (Z.to_nat (MAX - 23))) as (s & log & R & A1 & A2 & A3 & A4 & A5); [lia|].
    assert (E1 : wrap MAX (MAX - 0 - 20) <=? high s = false) by (rewrite wrap_small by lia; lia).
    exists (requestNewSearches MAX s 0), ([ERound] ++ log). split.
    { econstructor; [exact R|]. apply s_round; auto; [intros t; rewrite A2; reflexivity|lia]. }
    unfold requestNewSearches. rewrite E1. cbn [inround th high son req nsearch deact]. repeat split; auto; try lia.
    + rewrite wrap_small; lia.
    + cbn. rewrite A5. reflexivity.
    + f_equal. lia.
    + intros t _. rewrite A2. reflexivity.
  - destruct IH as (s & log & R & A1 & A2 & A3 & A4 & A5 & A6 & A7 & A8 & A9); [lia|].
    eexists _, ([] ++ log). split; [econstructor; [exact R|]; apply (s_search MAX N T s j); auto; lia|].
    cbn [inround th high son req nsearch deact app].
    assert (Ej : wrap MAX (high s + 1) = wrap MAX (MAX - 20 + Z.of_nat (S j))).
    { rewrite A7. rewrite (wrap_small (MAX - 20 + Z.of_nat j)) by lia. f_equal. lia. }
    repeat split; auto; try lia.
    + intros t Ht. rewrite upd_other by lia. apply A8. lia.
    + intros t Ht. destruct (Nat.eq_dec t j) as [->|D].
      * rewrite upd_same. rewrite Ej. reflexivity.
      * rewrite upd_other by auto. apply A9. lia.
Qed.

Theorem C44_refuted_many_tasks : exists s log, reach s log /\ status 0 log = None.
Proof.
  destruct (many_searches 21) as (s & log & R & A1 & A2 & A3 & A4 & A5 & A6 & A7 & A8 & A9); [lia|].
  assert (E20 : th s 20%nat = mkTh 0 [] [] Run).
  { rewrite A9 by lia. f_equal. unfold wrap. replace (MAX - 20 + Z.of_nat 21) with (MAX + 1) by lia. apply Z.mod_same. lia. }
  pose proof (A9 0%nat ltac:(lia)) as E0. change (Z.of_nat 1) with 1 in E0. rewrite wrap_small in E0 by lia.
  (* thread 20 acquires node 0 with the wrapped id 0 *)
  pose (s1 := setTh s 20 (withPc (th s 20%nat) (Loaded 0 0))).
  assert (R1 : reach s1 ([] ++ log)).
  { econstructor; [exact R|]. unfold s1. pose proof (s_load MAX N T s 20 0) as S. rewrite A5 in S.
    replace (isSearchInactive s 0) with true in S by (unfold isSearchInactive; rewrite A4; lia). apply S; [rewrite E20; reflexivity|lia]. }
  pose (s2 := setTh (setSon s1 0 0) 20 (mkTh 0 [0%nat] [] Run)).
  assert (R2 : reach s2 ([EAcq 20 0 0] ++ [] ++ log)).
  { econstructor; [exact R1|]. unfold s2. pose proof (s_cas MAX N T s1 20 0 0) as S.
    assert (T1 : th s1 20%nat = mkTh 0 [] [] (Loaded 0 0)) by (unfold s1; cbn [setTh th]; rewrite upd_same, E20; reflexivity).
    rewrite T1 in S. cbn [tpc sid pq mvs] in S. apply S; [reflexivity|exact A5]. }
  (* thread 0 still sees an inactive node and acquires it as well *)
  pose (s3 := setTh s2 0 (withPc (th s2 0%nat) (Loaded 0 0))).
  assert (T0 : th s2 0%nat = mkTh (MAX - 20 + 1) [] [] Run) by exact E0.
  assert (R3 : reach s3 ([] ++ [EAcq 20 0 0] ++ [] ++ log)).
  { econstructor; [exact R2|]. unfold s3. pose proof (s_load MAX N T s2 0 0) as S.
    change (son s2 0%nat) with 0 in S. replace (isSearchInactive s2 0) with true in S by (unfold isSearchInactive; change (deact s2) with (deact s); rewrite A4; lia).
    apply S; [rewrite T0; reflexivity|lia]. }
  eexists _, ([EAcq 0 (MAX - 20 + 1) 0] ++ [] ++ [EAcq 20 0 0] ++ [] ++ log). split.
  - econstructor; [exact R3|]. pose proof (s_cas MAX N T s3 0 0 0) as S.
    assert (Q : sid (th s3 0%nat) = MAX - 20 + 1) by (unfold s3; cbn [setTh th]; rewrite upd_same, T0; reflexivity).
    rewrite Q in S. apply S; [unfold s3; cbn [setTh th]; rewrite upd_same; reflexivity|reflexivity].
  - cbn. rewrite A6. reflexivity.
Qed.
End Wrap.

(** A concrete execution: two searches, node 0 acquired by both in turn, moved by one; second round. *)
Example ex_tracker : exists s log, reach 1000 4 8 s log /\ (forall t, pend (tpc (th s t)) = None) /\
  inserted log = [(1, mkMv 0 0 1)] /\ status 1 log = Some (Held 1 5) /\ wasNodeMovedInThisRound s 0 = true.
Proof.
  pose (s0 := requestNewSearches 1000 init 2).
  assert (R0 : reach 1000 4 8 s0 [ERound]).
  { apply (r_step _ _ _ init [] [ERound]); [constructor|]. apply s_round; [reflexivity|reflexivity|cbn; lia]. }
  assert (R1 := r_step _ _ _ _ _ _ _ R0 (s_search 1000 4 8 s0 0 eq_refl eq_refl eq_refl)). cbv zeta in R1.
  match type of R1 with reach _ _ _ ?x _ => set (s1 := x) in R1 end.
  assert (R2 := r_step _ _ _ _ _ _ _ R1 (s_search 1000 4 8 s1 1 eq_refl eq_refl eq_refl)). cbv zeta in R2.
  match type of R2 with reach _ _ _ ?x _ => set (s2 := x) in R2 end.
  assert (R3 := r_step _ _ _ _ _ _ _ R2 (s_load 1000 4 8 s2 0 0 eq_refl ltac:(lia))).
  match type of R3 with reach _ _ _ ?x _ => set (s3 := x) in R3 end.
  assert (R4 := r_step _ _ _ _ _ _ _ R3 (s_cas 1000 4 8 s3 0 0 0 eq_refl eq_refl)).
  match type of R4 with reach _ _ _ ?x _ => set (s4 := x) in R4 end.
  assert (R5 := r_step _ _ _ _ _ _ _ R4 (s_load 1000 4 8 s4 1 1 eq_refl ltac:(lia))).
  match type of R5 with reach _ _ _ ?x _ => set (s5 := x) in R5 end.
  assert (R6 := r_step _ _ _ _ _ _ _ R5 (s_cas 1000 4 8 s5 1 1 0 eq_refl eq_refl)).
  match type of R6 with reach _ _ _ ?x _ => set (s6 := x) in R6 end.
  assert (Q6 : In 0%nat (pq (th s6 0%nat))) by (vm_compute; auto).
  assert (R7 := r_step _ _ _ _ _ _ _ R6 (s_deact 1000 4 8 s6 0 0 eq_refl Q6)).
  match type of R7 with reach _ _ _ ?x _ => set (s7 := x) in R7 end.
  assert (Q7 : In (mv_node (mkMv 0 0 1)) (mvs (th s7 0%nat))) by (vm_compute; auto).
  assert (R8 := r_step _ _ _ _ _ _ _ R7 (s_fetch 1000 4 8 s7 0 (mkMv 0 0 1) eq_refl Q7)).
  match type of R8 with reach _ _ _ ?x _ => set (s8 := x) in R8 end.
  assert (R9 := r_step _ _ _ _ _ _ _ R8 (s_order 1000 4 8 s8 0 1 (mkMv 0 0 1) eq_refl)).
  match type of R9 with reach _ _ _ ?x _ => set (s9 := x) in R9 end.
  assert (R10 := r_step _ _ _ _ _ _ _ R9 (s_ofnode 1000 4 8 s9 0 1 (mkMv 0 0 1) eq_refl)).
  match type of R10 with reach _ _ _ ?x _ => set (s10 := x) in R10 end.
  eexists s10, _. split; [exact R10|]. split; [|split; [|split]].
  - intros [|[|t]]; vm_compute; reflexivity.
  - vm_compute. reflexivity.
  - vm_compute. reflexivity.
  - vm_compute. reflexivity.
Qed.
