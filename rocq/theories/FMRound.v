(** FMRound.v - the parallel phase of one round of k-way FM: localized searches that acquire nodes, pop moves and apply improving local
    sequences to the shared partition (localized_kway_fm_core.cpp:38-246), under every interleaving.
    The node and move trackers are the machine of Tracker.v, changeNodePart is executed step by step as in Conc.v (through the pool of
    LPPool.v, each node handed out once), and insertMove is called between the update of the block weights and the hyperedges
    (partitioned_hypergraph.h:608-610), while other threads run.
    Left to the environment: which nodes are acquired and popped, the target blocks, when a search flushes, stops and ends; so the
    delta partition, gains and stopping rule do not matter. *)
From Verif Require Import Base Spec SpecLemmas PHG PHGProofs GainCache Metrics Conc ConcProofs ConcMore ConcRun PropsA Scan LP LPPool LPPoolThms Rollback RollbackProofs.
From Verif Require Tracker Interleave UncRound.

Definition tm (m : mv) : Tracker.mv := Tracker.mkMv (m_u m) (m_from m) (m_to m).
Record fmst := mkF {
  f_t : Tracker.st;                   (* node tracker, move tracker, state of the searches *)
  f_log : list Tracker.event;
  f_p : pst;                          (* partition and the changeNodePart calls in progress *)
  f_blk : nat -> option nat;          (* block in whose queue a node was inserted *)
  f_lm : nat -> list mv;              (* localMoves of each thread *)
  f_ins : nat -> option mv }.         (* a thread that has to call insertMove now *)

Section Round.
Variables (H : hypergraph) (k n : nat) (mops : hypergraph -> sync_update -> list mop) (N : nat) (T : Z) (fixed : nat -> bool).
Local Notation tstep := (Tracker.step MAXID N T).
Local Notation tth st t := (Tracker.th (f_t st) t).
(** The pool: every node once; nothing is ever skipped or repeated. *)
Definition fmay (P : partition) (m : mv) (x : Z) : bool :=
  negb (Nat.eqb (m_from m) (m_to m)) && (m_to m <? k)%nat && (m_max m =? MAXW) && negb (fixed (m_u m)).
Definition fpstep : pst -> plabel -> option pst :=
  LPPool.pstep H n mops (fun _ => 0) (fun _ _ => false) fmay (fun _ _ _ _ => None) (fun _ _ _ _ _ _ y => y).
(** changeNodePart is called with the block remembered in the local move, whatever has happened to the node since. *)
Definition begin_call (p : pst) (t : nat) (m : mv) : pst :=
  mkPS (ubegin H (p_c p) t m) (rem1 (m_u m) (p_todo p)) (upd (upd (p_pc p) t (TCall m 0 false)) t (TIn m 0 false)) (upd (p_acc p) t 0) (p_fl p) (p_an p).
Definition quiet (ev : list Tracker.event) : bool :=
  forallb (fun e => match e with Tracker.EAcq _ _ _ | Tracker.ERel _ _ _ => true | _ => false end) ev.
Definition is_stored (x : tst) : bool := match x with Stored _ => true | _ => false end.

Inductive jstep : fmst -> fmst -> Prop :=
(** start of a search, tryAcquireNode, the last two steps of insertMove, releasing nodes, end of a search (core.cpp:40-57, 79-115, 245);
    a thread inside changeNodePart only executes the steps of insertMove.  Fixed vertices are never acquired (core.cpp:89, 101;
    multitry_kway_fm.cpp:246, 258). *)
| j_track st ev T' : tstep (f_t st) ev T' -> quiet ev = true -> Tracker.inround T' = true ->
    (forall t, p_pc (f_p st) t <> TIdle -> Tracker.th T' t = tth st t \/ Tracker.pend (Tracker.tpc (tth st t)) <> None) ->
    (forall t u v, Tracker.tpc (Tracker.th T' t) = Tracker.Loaded u v -> In u (nodes H) /\ fixed u = false) ->
    jstep st (mkF T' (ev ++ f_log st) (f_p st) (f_blk st)
                  (fun t => match Tracker.tpc (Tracker.th T' t) with Tracker.Idle => [] | _ => f_lm st t end) (f_ins st))
(** insertIntoPQ: the block of an acquired node is read *)
| j_read st t u b : In u (Tracker.pq (tth st t)) -> part (sh (p_c (f_p st))) u = Some b ->
    jstep st (mkF (f_t st) (f_log st) (f_p st) (upd (f_blk st) u (Some b)) (f_lm st) (f_ins st))
(** findNextMove and deactivateNode, core.cpp:140-205: the popped node is skipped or its move is appended to localMoves *)
| j_pop st t u T' to : tstep (f_t st) [Tracker.EDeact t (Tracker.sid (tth st t)) u] T' -> p_pc (f_p st) t = TIdle ->
    match to with Some c => exists b, f_blk st u = Some b /\ b <> c /\ (c < k)%nat | None => True end ->
    jstep st (mkF T' (Tracker.EDeact t (Tracker.sid (tth st t)) u :: f_log st) (f_p st) (f_blk st)
                  (upd (f_lm st) t (f_lm st t ++ match to, f_blk st u with Some c, Some b => [mkMv u b c MAXW] | _, _ => [] end)) (f_ins st))
(** applying the local moves, core.cpp:211-218 *)
| j_begin st t m rest : (t < n)%nat -> f_lm st t = m :: rest -> p_pc (f_p st) t = TIdle -> Tracker.tpc (tth st t) = Tracker.Run ->
    jstep st (mkF (f_t st) (f_log st) (begin_call (f_p st) t m) (f_blk st) (upd (f_lm st) t rest) (f_ins st))
| j_adv st t m x r p' : p_pc (f_p st) t = TIn m x r -> f_ins st t = None -> Tracker.tpc (tth st t) = Tracker.Run ->
    fpstep (f_p st) (PAdv t) = Some p' ->
    jstep st (mkF (f_t st) (f_log st) p' (f_blk st) (f_lm st)
                  (if is_stored (th (p_c (f_p st)) t) then upd (f_ins st) t (Some m) else f_ins st))
| j_fetch st t m id T' : f_ins st t = Some m -> tstep (f_t st) [Tracker.EIns t id (tm m)] T' ->
    jstep st (mkF T' (Tracker.EIns t id (tm m) :: f_log st) (f_p st) (f_blk st) (f_lm st) (upd (f_ins st) t None)).

(** Start of the round: roundInitialization has requested new searches (multitry_kway_fm.cpp:268-271); [s0]: the partition. *)
Definition fm_start (T0 : Tracker.st) (log0 : list Tracker.event) (s0 : phg) (c0 : cache) (x0 : nact) : fmst :=
  mkF T0 log0 (pinit s0 c0 (nodes H) x0) (fun _ => None) (fun _ => []) (fun _ => None).
Inductive jreach (st0 : fmst) : fmst -> Prop :=
| jr_start : jreach st0 st0
| jr_step st st' : jreach st0 st -> jstep st st' -> jreach st0 st'.
(** All tasks have returned (multitry_kway_fm.cpp:130-132). *)
Definition all_idle (st : fmst) : Prop := forall t, Tracker.tpc (tth st t) = Tracker.Idle.

(** *** Proofs *)
Hypotheses (HN : Z.of_nat N + 23 <= MAXID) (HT : 0 <= T <= 20).
Hypotheses (WF : wf_hg H) (Wn : forall v, In v (nodes H) -> 0 <= nw H v) (Wt : total_weight H <= MAXW).
Variables (s0 : phg) (c0 : cache) (x0 : nact).
Hypotheses (CS : consistent H s0) (HC : complete H (part s0) (pk s0)) (Kk : pk s0 = k).
Local Notation P0 := (part s0).
Definition mgood (m : mv) : Prop :=
  In (m_u m) (nodes H) /\ fixed (m_u m) = false /\ P0 (m_u m) = Some (m_from m) /\ m_from m <> m_to m /\ (m_to m < k)%nat /\ m_max m = MAXW.
Definition fokm (m : mv) : Prop := fixed (m_u m) = false.
Local Notation FPI := (PI H k n mops (fun _ => MAXW) fokm (fun _ _ => True) (fun _ => True) (nodes H) s0 c0).
Definition pre (x : tst) : bool := match x with Added _ _ | Stored _ => true | _ => false end.

Record J (st : fmst) : Prop := {
  j_inv : Tracker.inv MAXID N T (f_t st) (f_log st);
  j_inv2 : Tracker.inv2 MAXID N (f_t st) (f_log st);
  j_round : Tracker.inround (f_t st) = true;
  j_pi : FPI (f_p st);
  j_dead : forall v, In v (nodes H) -> ~ In v (p_todo (f_p st)) -> Tracker.status v (f_log st) = Some Tracker.Dead;
  j_blk : forall u b, f_blk st u = Some b -> P0 u = Some b;
  j_load : forall t u v, Tracker.tpc (tth st t) = Tracker.Loaded u v -> In u (nodes H) /\ fixed u = false;
  j_pq : forall t u, In u (Tracker.pq (tth st t)) -> In u (nodes H) /\ fixed u = false;
  j_lm : forall t m, In m (f_lm st t) -> mgood m /\ In (m_u m) (Tracker.mvs (tth st t)) /\ In (m_u m) (p_todo (f_p st));
  j_lmnd : forall t, NoDup (map m_u (f_lm st t));
  j_nocall : forall t m x r, p_pc (f_p st) t <> TCall m x r;
  j_idle : forall t, p_pc (f_p st) t = TIdle -> f_ins st t = None;
  j_call : forall t m x r, p_pc (f_p st) t = TIn m x r -> mgood m /\ Tracker.tpc (tth st t) <> Tracker.Idle /\
    ((pre (th (p_c (f_p st)) t) = true /\ f_ins st t = None /\ Tracker.tpc (tth st t) = Tracker.Run /\ In (m_u m) (Tracker.mvs (tth st t))) \/
     (pre (th (p_c (f_p st)) t) = false /\ f_ins st t = Some m /\ Tracker.tpc (tth st t) = Tracker.Run /\ In (m_u m) (Tracker.mvs (tth st t))) \/
     (pre (th (p_c (f_p st)) t) = false /\ f_ins st t = None /\ exists id, In (id, tm m) (Tracker.inserted (f_log st))));
  j_fl : forall v, In v (p_fl (f_p st)) -> exists id m, In (id, m) (Tracker.inserted (f_log st)) /\ Tracker.mv_node m = v;
  j_cov : forall v, In v (nodes H) -> In v (p_todo (f_p st)) \/ (exists t, (t < n)%nat /\ owner (p_pc (f_p st) t) = Some v) \/ In v (p_fl (f_p st));
  j_ins : forall id m, In (id, m) (Tracker.inserted (f_log st)) -> exists cm, m = tm cm /\ mgood cm /\ ~ In (m_u cm) (p_todo (f_p st)) /\
     part (sh (p_c (f_p st))) (m_u cm) = Some (m_to cm) }.

Lemma onat_dec (a b : option nat) : {a = b} + {a <> b}.
Proof. decide equality. apply Nat.eq_dec. Qed.
(** Nodes not handed out are where they were. *)
Lemma todo_part st v : J st -> In v (p_todo (f_p st)) -> part (sh (p_c (f_p st))) v = P0 v.
Proof.
  intros I Hv. destruct (onat_dec (part (sh (p_c (f_p st))) v) (P0 v)) as [E|E]; [exact E|]. exfalso.
  destruct (i_ch _ _ _ _ _ _ _ _ _ _ _ _ (j_pi st I) v E) as [X|(i & Hi & X)].
  - destruct (i_fl _ _ _ _ _ _ _ _ _ _ _ _ (j_pi st I)) as (_ & _ & Y). apply (proj1 (Y v X)), Hv.
  - apply (proj1 (i_out _ _ _ _ _ _ _ _ _ _ _ _ (j_pi st I) i v Hi X)), Hv.
Qed.

Lemma quiet_step T0 log ev T' : Tracker.inv MAXID N T T0 log -> tstep T0 ev T' -> quiet ev = true -> Tracker.inround T' = true ->
  (ev = [] \/ exists e, ev = [e] /\ e <> Tracker.ERound) /\ Tracker.inserted (ev ++ log) = Tracker.inserted log /\
  forall t, (Tracker.tpc (Tracker.th T' t) = Tracker.Idle \/ Tracker.mvs (Tracker.th T' t) = Tracker.mvs (Tracker.th T0 t)) /\
    (Tracker.pend (Tracker.tpc (Tracker.th T0 t)) <> None -> Tracker.tpc (Tracker.th T' t) <> Tracker.Idle) /\
    (forall u, In u (Tracker.pq (Tracker.th T' t)) -> In u (Tracker.pq (Tracker.th T0 t)) \/ exists v, Tracker.tpc (Tracker.th T0 t) = Tracker.Loaded u v).
Proof.
  intros I S Q R. destruct S; try discriminate Q; try discriminate R;
    (split; [first [left; reflexivity|right; eexists; split; [reflexivity|discriminate]]|]; split; [reflexivity|]; intros t0);
    unfold Tracker.setTh, Tracker.setSon, Tracker.withPc; cbn [Tracker.th];
    (destruct (Nat.eq_dec t0 t) as [->|Ne]; [rewrite upd_same; cbn [Tracker.tpc Tracker.mvs Tracker.pq]|rewrite upd_other by exact Ne; split; [right; reflexivity|split; [|intros u0 Hu; left; exact Hu]]; intros X Y; rewrite Y in X; apply X; reflexivity]).
  - split; [right; symmetry; apply (Tracker.i_thidle _ _ _ _ _ I t H1)|]. split; [discriminate|intros u []].
  - split; [right; reflexivity|]. split; [intros _; destruct (Tracker.isSearchInactive s (Tracker.son s u)); discriminate|intros u0 Hu; left; exact Hu].
  - split; [right; reflexivity|]. split; [discriminate|intros u0 Hu; left; exact Hu].
  - split; [right; reflexivity|]. split; [discriminate|]. intros u0 [<-|Hu]; [right; exists v; assumption|left; exact Hu].
  - split; [right; reflexivity|]. split; [discriminate|intros u0 Hu; left; exact Hu].
  - split; [right; reflexivity|]. split; [discriminate|intros u0 Hu; left; exact Hu].
  - split; [right; reflexivity|]. split; [discriminate|intros u0 Hu; left; exact Hu].
  - split; [right; reflexivity|]. split; [discriminate|]. intros u0 Hu. left. apply Tracker.in_rmv in Hu. apply Hu.
  - split; [left; reflexivity|]. split; [|intros u0 []]. intros X. rewrite H0 in X. exfalso. apply X. reflexivity.
Qed.
Lemma quiet_dead T0 log ev T' v : Tracker.inv MAXID N T T0 log -> tstep T0 ev T' -> quiet ev = true -> Tracker.inround T' = true ->
  Tracker.status v log = Some Tracker.Dead -> Tracker.status v (ev ++ log) = Some Tracker.Dead.
Proof.
  intros I S Q R D. destruct (quiet_step T0 log ev T' I S Q R) as ([->|(e & -> & Ne)] & _); [exact D|].
  apply Tracker.dead_keep; [exact Ne|exact D|]. destruct (Tracker.i_own _ _ _ _ _ (Tracker.inv_step MAXID N T HN HT _ _ _ _ I S) v) as (o & So & _). exists o. exact So.
Qed.
Lemma adv_pre c i m c' : mv_of (th c i) = Some m -> (forall a, th c i = Added m a -> a <= m_max m) -> adv H mops c i = Some c' ->
  pre (th c' i) = match th c i with Added _ _ => true | _ => false end /\
  ((forall a, th c i <> Added m a) -> part (sh c') = part (sh c)).
Proof.
  intros Em B E. unfold adv in E.
  destruct (th c i) as [|m1 a|m1|m1 rem|m1 e rem|m1 e rem fa|m1 rem su|m1 rem ops] eqn:Ei; try discriminate Em; cbn in Em; injection Em as ->.
  - specialize (B a eq_refl). replace (a <=? m_max m) with true in E by lia. injection E as <-. cbn. rewrite upd_same. split; [reflexivity|]. intros X. exfalso. apply (X a). reflexivity.
  - injection E as <-. cbn. rewrite upd_same. split; reflexivity.
  - destruct rem as [|e rem].
    + injection E as <-. cbn. rewrite upd_same. split; reflexivity.
    + destruct (lk c e); [discriminate E|]. injection E as <-. cbn. rewrite upd_same. split; reflexivity.
  - unfold decrementPinCountOfBlock in E. destruct (_ && _) in E; [|discriminate E]. injection E as <-. cbn. rewrite upd_same. split; [reflexivity|]. intros _. destruct (_ =? _); reflexivity.
  - unfold incrementPinCountOfBlock in E. destruct (_ <? _)%nat in E; [|discriminate E]. injection E as <-. cbn. rewrite upd_same. split; [reflexivity|]. intros _. destruct (_ =? _); reflexivity.
  - injection E as <-. cbn. rewrite upd_same. split; reflexivity.
  - destruct ops as [|o ops].
    + injection E as <-. cbn. rewrite upd_same. split; reflexivity.
    + destruct (exec_mop (part (sh c)) (gc c) o ops) as [c1 ops']. injection E as <-. cbn. rewrite upd_same. split; reflexivity.
Qed.
Lemma FPI_step p l p' : FPI p -> fpstep p l = Some p' -> FPI p'.
Proof.
  intros I E. refine (pstep_PI H k n mops (fun _ => 0) (fun _ _ => false) fmay (fun _ _ _ _ => None) (fun _ _ _ _ _ _ y => y) WF Wn Wt (fun _ => MAXW) fokm (fun _ _ => True) (fun _ => True) (nodes H) _ _ _ _ _ s0 c0 x0 Kk (incl_refl _) p l p' I E); auto.
  - intros P m x M _ _. unfold fmay in M. repeat (apply andb_true_iff in M; destruct M as [M ?]). repeat match goal with X : negb _ = true |- _ => apply negb_true_iff in X end.
    apply Nat.eqb_neq in M. split; [exact M|]. split; [apply Nat.ltb_lt; assumption|]. split; [apply Z.eqb_eq; assumption|assumption].
  - discriminate.
Qed.
Lemma queued st t u : J st -> In u (Tracker.pq (tth st t)) -> In u (p_todo (f_p st)).
Proof.
  intros I Hu. destruct (in_dec Nat.eq_dec u (p_todo (f_p st))) as [X|X]; [exact X|]. exfalso. destruct (j_pq st I t u Hu) as [Hn _].
  pose proof (j_dead st I u Hn X) as D. destruct (Tracker.queue_held _ _ _ _ _ _ _ (j_inv st I) Hu) as (_ & E & _). congruence.
Qed.

Lemma J_track st ev T' : J st -> tstep (f_t st) ev T' -> quiet ev = true -> Tracker.inround T' = true ->
    (forall t, p_pc (f_p st) t <> TIdle -> Tracker.th T' t = tth st t \/ Tracker.pend (Tracker.tpc (tth st t)) <> None) ->
    (forall t u v, Tracker.tpc (Tracker.th T' t) = Tracker.Loaded u v -> In u (nodes H) /\ fixed u = false) ->
    J (mkF T' (ev ++ f_log st) (f_p st) (f_blk st)
                  (fun t => match Tracker.tpc (Tracker.th T' t) with Tracker.Idle => [] | _ => f_lm st t end) (f_ins st)).
Proof.
  intros I S Q R Fr Ld. destruct (quiet_step _ _ _ _ (j_inv st I) S Q R) as (_ & Ein & Th).
  pose proof (Tracker.inv_step MAXID N T HN HT _ _ _ _ (j_inv st I) S) as I1.
  split; cbn [f_t f_log f_p f_blk f_lm f_ins].
  - exact I1.
  - exact (Tracker.inv2_step MAXID N T HN HT _ _ _ _ (j_inv st I) I1 (j_inv2 st I) S).
  - exact R.
  - apply (j_pi st I).
  - intros v Hv X. apply (quiet_dead (f_t st) _ _ T' v (j_inv st I) S Q R). apply (j_dead st I v Hv X).
  - apply (j_blk st I).
  - exact Ld.
  - intros t u Hu. destruct (proj2 (proj2 (Th t)) u Hu) as [X|[v X]]; [apply (j_pq st I t u X)|apply (j_load st I t u v X)].
  - intros t m Hm. destruct (Th t) as ([X|X] & _); [rewrite X in Hm; destruct Hm|].
    assert (Hm' : In m (f_lm st t)) by (destruct (Tracker.tpc (Tracker.th T' t)); [destruct Hm|exact Hm..]). rewrite X. apply (j_lm st I t m Hm').
  - intros t. destruct (Tracker.tpc (Tracker.th T' t)); [constructor|apply (j_lmnd st I t)..].
  - apply (j_nocall st I).
  - apply (j_idle st I).
  - intros t m x r E. destruct (j_call st I t m x r E) as (G & Ni & C). split; [exact G|]. rewrite Ein.
    assert (Fr' : Tracker.th T' t = tth st t \/ Tracker.pend (Tracker.tpc (tth st t)) <> None) by (apply Fr; congruence). destruct Fr' as [->|Pd]; [split; assumption|].
    split; [apply (proj1 (proj2 (Th t)) Pd)|]. destruct C as [(_ & _ & C & _)|[(_ & _ & C & _)|C]]; [rewrite C in Pd; exfalso; apply Pd; reflexivity..|]. right. right. exact C.
  - rewrite Ein. apply (j_fl st I).
  - apply (j_cov st I).
  - rewrite Ein. apply (j_ins st I).
Qed.
Lemma J_read st t u b : J st -> In u (Tracker.pq (tth st t)) -> part (sh (p_c (f_p st))) u = Some b ->
  J (mkF (f_t st) (f_log st) (f_p st) (upd (f_blk st) u (Some b)) (f_lm st) (f_ins st)).
Proof.
  intros I Hu Hb. split; cbn [f_t f_log f_p f_blk f_lm f_ins]; try apply I.
  intros w c. unfold upd. destruct (Nat.eqb w u) eqn:E; [|apply (j_blk st I)]. apply Nat.eqb_eq in E. subst w. intros X. injection X as <-.
  rewrite <- Hb. symmetry. apply (todo_part st u I). apply (queued st t u I Hu).
Qed.
Lemma J_pop st t u T' to : J st -> tstep (f_t st) [Tracker.EDeact t (Tracker.sid (tth st t)) u] T' -> p_pc (f_p st) t = TIdle ->
    match to with Some c => exists b, f_blk st u = Some b /\ b <> c /\ (c < k)%nat | None => True end ->
    J (mkF T' (Tracker.EDeact t (Tracker.sid (tth st t)) u :: f_log st) (f_p st) (f_blk st)
                  (upd (f_lm st) t (f_lm st t ++ match to, f_blk st u with Some c, Some b => [mkMv u b c MAXW] | _, _ => [] end)) (f_ins st)).
Proof.
  intros I S Ip Hto. pose proof (Tracker.inv_step MAXID N T HN HT _ _ _ _ (j_inv st I) S) as I1.
  pose proof (Tracker.inv2_step MAXID N T HN HT _ _ _ _ (j_inv st I) I1 (j_inv2 st I) S) as I2.
  inversion S as [| | | | | | | |? ? ? Er Hu E1 E2 E3| | | | | | |]; subst. cbn [app] in *.
  pose proof (queued st t u I Hu) as Td. destruct (j_pq st I t u Hu) as [Un Uf]. destruct (Tracker.queue_held _ _ _ _ _ _ _ (j_inv st I) Hu) as (_ & Held & _).
  assert (New : forall m, In m (match to, f_blk st u with Some c, Some b => [mkMv u b c MAXW] | _, _ => [] end) -> mgood m /\ m_u m = u).
  { intros m. destruct to as [c|]; [|intros []]. destruct Hto as (b & Hb & Ne & Hc). rewrite Hb. intros [<-|[]]. split; [|reflexivity]. unfold mgood. cbn. repeat (split; [assumption|]). split; [apply (j_blk st I), Hb|]. split; [exact Ne|]. split; [exact Hc|reflexivity]. }
  assert (Nw : forall m, In m (f_lm st t) -> m_u m <> u).
  { intros m Hm Em. destruct (j_lm st I t m Hm) as (_ & Mv & _). rewrite Em in Mv. apply (Tracker.m_mvs _ _ _ _ (j_inv2 st I)) in Mv. destruct Mv as (D & _). congruence. }
  split; cbn [f_t f_log f_p f_blk f_lm f_ins]; try apply I; auto.
  - intros v Hv X. pose proof (j_dead st I v Hv X) as D. apply Tracker.dead_keep; [discriminate|exact D|]. destruct (Tracker.i_own _ _ _ _ _ I1 v) as (o & So & _). exists o. exact So.
  - intros t' u' v'. cbn. destruct (Nat.eq_dec t' t) as [->|Nt]; [rewrite upd_same; discriminate|rewrite upd_other by exact Nt; apply (j_load st I)].
  - intros t' u'. cbn. destruct (Nat.eq_dec t' t) as [->|Nt]; [rewrite upd_same|rewrite upd_other by exact Nt; apply (j_pq st I)]. cbn. intros X. apply Tracker.in_rmv in X. apply (j_pq st I t u' (proj1 X)).
  - intros t' m. cbn. destruct (Nat.eq_dec t' t) as [->|Nt]; [rewrite !upd_same|rewrite !upd_other by exact Nt; apply (j_lm st I)]. cbn. intros X. apply in_app_or in X. destruct X as [X|X].
    + destruct (j_lm st I t m X) as (A & B & C). split; [exact A|]. split; [right; exact B|exact C].
    + destruct (New m X) as [A B]. split; [exact A|]. rewrite B. split; [left; reflexivity|exact Td].
  - intros t'. destruct (Nat.eq_dec t' t) as [->|Nt]; [rewrite !upd_same|rewrite !upd_other by exact Nt; apply (j_lmnd st I)]. rewrite map_app.
    destruct to as [c|]; [destruct (f_blk st u) as [b|]|]; cbn [map]; rewrite ?app_nil_r; try apply (j_lmnd st I). cbn [m_u].
    apply Interleave.NoDup_app_intro; [apply (j_lmnd st I)|repeat constructor; intros []|]. intros w Hw [<-|[]]. apply in_map_iff in Hw. destruct Hw as (m & Em & Hm). apply (Nw m Hm Em).
  - intros t' m x r E. cbn. assert (Nt : t' <> t) by congruence. rewrite upd_other by exact Nt. apply (j_call st I t' m x r E).
Qed.
Lemma J_begin st t m rest : J st -> (t < n)%nat -> f_lm st t = m :: rest -> p_pc (f_p st) t = TIdle -> Tracker.tpc (tth st t) = Tracker.Run ->
  J (mkF (f_t st) (f_log st) (begin_call (f_p st) t m) (f_blk st) (upd (f_lm st) t rest) (f_ins st)).
Proof.
  intros I Ht El Ip Rn. set (p := f_p st) in *.
  assert (Hm : In m (f_lm st t)) by (rewrite El; left; reflexivity). destruct (j_lm st I t m Hm) as (G & Mv & Td). fold p in Td. pose proof G as (Gn & Gf & Gp & Gd & Gk & Gx).
  destruct (Tracker.m_mvs _ _ _ _ (j_inv2 st I) t (m_u m) Mv) as (Dd & Ni & Oth).
  assert (FP : FPI (begin_call p t m)).
  { assert (E1 : fpstep p (PTake t m 0) = Some (mkPS (p_c p) (rem1 (m_u m) (p_todo p)) (upd (p_pc p) t (TCall m 0 false)) (upd (p_acc p) t 0) (p_fl p) (p_an p))).
    { unfold fpstep, LPPool.pstep. rewrite Ip. replace (t <? n)%nat with true by (symmetry; apply Nat.ltb_lt; exact Ht). replace (mem (m_u m) (p_todo p)) with true by (symmetry; apply mem_In; exact Td).
      replace (in_block (part (sh (p_c p))) (m_from m) (m_u m)) with true by (symmetry; unfold in_block; subst p; rewrite (todo_part st (m_u m) I Td), Gp; apply Nat.eqb_refl).
      unfold fmay. replace (Nat.eqb (m_from m) (m_to m)) with false by (symmetry; apply Nat.eqb_neq; exact Gd). replace (m_to m <? k)%nat with true by (symmetry; apply Nat.ltb_lt; exact Gk).
      rewrite Gx, Z.eqb_refl, Gf. reflexivity. }
    pose proof (FPI_step _ _ _ (j_pi st I) E1) as I1. refine (FPI_step _ (PGo t) _ I1 _). unfold fpstep, LPPool.pstep. cbn [p_c p_todo p_pc p_acc p_fl p_an]. rewrite upd_same. reflexivity. }
  destruct (i_todo _ _ _ _ _ _ _ _ _ _ _ _ (j_pi st I)) as [Nd _]. fold p in Nd. destruct (rem1_nodup (m_u m) (p_todo p) Nd) as (_ & R1 & R2).
  assert (TE : forall w, In w (p_todo p) -> w <> m_u m -> In w (rem1 (m_u m) (p_todo p))) by (intros w Hw Ne; apply R2; assumption).
  split; cbn [f_t f_log f_p f_blk f_lm f_ins begin_call p_c p_todo p_pc p_acc p_fl p_an]; try apply I; auto.
  - intros v Hv X. destruct (Nat.eq_dec v (m_u m)) as [->|Ne]; [exact Dd|]. apply (j_dead st I v Hv). intros Y. apply X, TE; assumption.
  - intros t' m'. destruct (Nat.eq_dec t' t) as [->|Nt]; [rewrite upd_same|rewrite upd_other by exact Nt].
    + intros X. destruct (j_lm st I t m' ltac:(rewrite El; right; exact X)) as (A & B & C). split; [exact A|]. split; [exact B|]. apply TE; [exact C|]. intros Y.
      pose proof (j_lmnd st I t) as ND. rewrite El in ND. cbn in ND. inversion ND as [|? ? Z1 Z2]; subst. apply Z1. rewrite <- Y. apply in_map, X.
    + intros X. destruct (j_lm st I t' m' X) as (A & B & C). split; [exact A|]. split; [exact B|]. apply TE; [exact C|]. intros Y. rewrite Y in B. apply (Oth t' Nt B).
  - intros t'. destruct (Nat.eq_dec t' t) as [->|Nt]; [rewrite upd_same|rewrite upd_other by exact Nt; apply (j_lmnd st I)].
    pose proof (j_lmnd st I t) as ND. rewrite El in ND. cbn in ND. inversion ND; assumption.
  - intros t' m' x r. destruct (Nat.eq_dec t' t) as [->|Nt]; [rewrite upd_same; discriminate|rewrite !upd_other by exact Nt; apply (j_nocall st I)].
  - intros t'. destruct (Nat.eq_dec t' t) as [->|Nt]; [rewrite upd_same; discriminate|rewrite !upd_other by exact Nt; apply (j_idle st I)].
  - intros t' m' x r. destruct (Nat.eq_dec t' t) as [->|Nt].
    + rewrite upd_same. intros X. injection X as <- _ _. split; [exact G|]. split; [rewrite Rn; discriminate|]. left. unfold ubegin. cbn. rewrite upd_same. split; [reflexivity|]. split; [apply (j_idle st I t Ip)|]. split; assumption.
    + rewrite !upd_other by exact Nt. unfold ubegin. cbn. rewrite upd_other by exact Nt. apply (j_call st I t' m' x r).
  - intros v Hv. destruct (Nat.eq_dec v (m_u m)) as [->|Ne]; [right; left; exists t; split; [exact Ht|]; rewrite upd_same; reflexivity|].
    destruct (j_cov st I v Hv) as [X|[(t' & H1 & X)|X]]; [left; apply TE; assumption| |right; right; exact X]. right. left. exists t'. split; [exact H1|]. assert (Nt : t' <> t) by (intros ->; fold p in X; rewrite Ip in X; discriminate X). rewrite !upd_other by exact Nt. exact X.
  - intros id m' X. destruct (j_ins st I id m' X) as (cm & E & A & B & C). exists cm. split; [exact E|]. split; [exact A|]. split; [intros Y; apply B; apply (rem1_In _ _ _ Y)|exact C].
Qed.
Lemma call_bound st t : J st -> p_pc (f_p st) t <> TIdle -> (t < n)%nat.
Proof. intros I X. destruct (Nat.lt_ge_cases t n) as [Y|Y]; [exact Y|]. exfalso. apply X. apply (i_idle _ _ _ _ _ _ _ _ _ _ _ _ (j_pi st I)). lia. Qed.
Lemma J_adv st t m x r p' : J st -> p_pc (f_p st) t = TIn m x r -> f_ins st t = None -> Tracker.tpc (tth st t) = Tracker.Run ->
  fpstep (f_p st) (PAdv t) = Some p' ->
  J (mkF (f_t st) (f_log st) p' (f_blk st) (f_lm st) (if is_stored (th (p_c (f_p st)) t) then upd (f_ins st) t (Some m) else f_ins st)).
Proof.
  intros I Ec In0 Rn E. set (p := f_p st) in *. pose proof (FPI_step _ _ _ (j_pi st I) E) as FP.
  assert (Ht : (t < n)%nat) by (apply (call_bound st t I); fold p; congruence).
  assert (Em : mv_of (th (p_c p) t) = Some m) by (subst p; rewrite (i_th _ _ _ _ _ _ _ _ _ _ _ _ (j_pi st I) t Ht); rewrite Ec; reflexivity).
  destruct (j_call st I t m x r Ec) as (G & Nid & C). pose proof G as (Gn & Gf & Gp & Gd & Gk & Gx).
  assert (Bd : forall a, th (p_c p) t = Added m a -> a <= m_max m) by (intros a Ha; rewrite Gx; apply (i_bd _ _ _ _ _ _ _ _ _ _ _ _ (j_pi st I) t m a Ht Ha)).
  unfold fpstep, LPPool.pstep in E. rewrite Ec in E. destruct (adv H mops (p_c p) t) as [c'|] eqn:Ea; [|discriminate].
  destruct (adv_pre (p_c p) t m c' Em Bd Ea) as [Pr Pp].
  destruct (i_base _ _ _ _ _ _ _ _ _ _ _ _ (j_pi st I)) as [eff Ba]. destruct (adv_facts H n mops k (p_c p) eff t m c' Ba Ht Em Ea) as (tt & Eth & Op & Ca).
  assert (Tt : th c' t = tt) by (rewrite Eth; apply upd_same).
  assert (OT : forall t', t' <> t -> th c' t' = th (p_c p) t') by (intros t' Ne; rewrite Eth; apply upd_other; exact Ne).
  assert (PreT : pre (th (p_c p) t) = true -> In (m_u m) (Tracker.mvs (tth st t))).
  { intros Y. fold p in C. rewrite Y in C. clear - C. destruct C as [(_ & _ & _ & X)|[(X & _)|(X & _)]]; [exact X|discriminate X..]. }
  assert (PI' : forall id m', In (id, m') (Tracker.inserted (f_log st)) -> exists cm, m' = tm cm /\ mgood cm /\ ~ In (m_u cm) (p_todo p) /\ part (sh c') (m_u cm) = Some (m_to cm)).
  { intros id m' X. destruct (j_ins st I id m' X) as (cm & E1 & A & B & D). exists cm. split; [exact E1|]. split; [exact A|]. split; [exact B|]. rewrite <- D.
    destruct (Nat.eq_dec (m_u cm) (m_u m)) as [Y|Y]; [|apply Op; exact Y]. rewrite Pp; [reflexivity|]. intros a Ha. 
    assert (Mv : In (m_u m) (Tracker.mvs (tth st t))) by (apply PreT; rewrite Ha; reflexivity).
    destruct (Tracker.m_mvs _ _ _ _ (j_inv2 st I) t (m_u m) Mv) as (_ & Ni & _). apply Ni. rewrite <- Y. subst m'. apply (Tracker.insn_in _ _ _ X). }
  assert (Ph3 : is_stored (th (p_c p) t) = false -> pre (th (p_c p) t) = false -> exists id, In (id, tm m) (Tracker.inserted (f_log st))).
  { intros _ Y. fold p in C. destruct C as [(X & _)|[(_ & X & _)|(_ & _ & X)]]; [congruence|congruence|exact X]. }
  assert (InsE : forall t', t' <> t -> (if is_stored (th (p_c p) t) then upd (f_ins st) t (Some m) else f_ins st) t' = f_ins st t') by (intros t' Ne; destruct (is_stored _); [apply upd_other; exact Ne|reflexivity]).
  rewrite Tt in E. destruct Ca as [(Mt & _ & Nt & _)|(-> & b & Rp & Pt & Bb)].
  - replace (idleb tt) with false in E by (destruct tt; [congruence|reflexivity..]). injection E as <-.
    split; cbn [f_t f_log f_p f_blk f_lm f_ins p_c p_todo p_pc p_acc p_fl p_an]; try apply I; auto.
    + intros t' Y. destruct (Nat.eq_dec t' t) as [->|Ne]; [congruence|]. rewrite InsE by exact Ne. apply (j_idle st I t' Y).
    + intros t' m' x' r' Y. destruct (Nat.eq_dec t' t) as [->|Ne]; [|rewrite InsE by exact Ne; rewrite OT by exact Ne; apply (j_call st I t' m' x' r' Y)].
      rewrite Ec in Y. injection Y as <- <- <-. split; [exact G|]. split; [exact Nid|]. rewrite Pr.
      destruct (th (p_c p) t) as [|m1 a|m1|m1 rem|m1 e rem|m1 e rem fa|m1 rem su|m1 rem ops] eqn:Ei; try discriminate Em; cbn [is_stored].
      * left. split; [reflexivity|]. split; [exact In0|]. split; [exact Rn|]. apply PreT. reflexivity.
      * right. left. split; [reflexivity|]. split; [apply upd_same|]. split; [exact Rn|]. apply PreT. reflexivity.
      * right. right. split; [reflexivity|]. split; [exact In0|]. apply Ph3; reflexivity.
      * right. right. split; [reflexivity|]. split; [exact In0|]. apply Ph3; reflexivity.
      * right. right. split; [reflexivity|]. split; [exact In0|]. apply Ph3; reflexivity.
      * right. right. split; [reflexivity|]. split; [exact In0|]. apply Ph3; reflexivity.
      * right. right. split; [reflexivity|]. split; [exact In0|]. apply Ph3; reflexivity.
  - assert (Ed : exists id, In (id, tm m) (Tracker.inserted (f_log st)) /\ is_stored (th (p_c p) t) = false).
    { cbn in Pr. rewrite Tt in Pr. cbn in Pr. destruct (th (p_c p) t) as [|m1 a|m1|m1 rem|m1 e rem|m1 e rem fa|m1 rem su|m1 rem ops] eqn:Ei; try discriminate Em; try discriminate Pr.
      - exfalso. unfold adv in Ea. rewrite Ei in Ea. injection Ea as <-. cbn in Tt. rewrite upd_same in Tt. discriminate.
      - destruct (Ph3 eq_refl eq_refl) as [id Y]; exists id; split; [exact Y|reflexivity].
      - destruct (Ph3 eq_refl eq_refl) as [id Y]; exists id; split; [exact Y|reflexivity].
      - destruct (Ph3 eq_refl eq_refl) as [id Y]; exists id; split; [exact Y|reflexivity].
      - destruct (Ph3 eq_refl eq_refl) as [id Y]; exists id; split; [exact Y|reflexivity].
      - destruct (Ph3 eq_refl eq_refl) as [id Y]; exists id; split; [exact Y|reflexivity]. }
    destruct Ed as (id & Hid & St). rewrite St. cbn [idleb] in E. unfold after_call in E. assert (E' : p' = mkPS c' (p_todo p) (upd (p_pc p) t TIdle) (upd (p_acc p) t 0) (p_fl p ++ [m_u m]) (p_an p)) by (destruct r; injection E as <-; reflexivity).
    clear E. subst p'. split; cbn [f_t f_log f_p f_blk f_lm f_ins p_c p_todo p_pc p_acc p_fl p_an]; try apply I; auto.
    + intros t' m' x' r'. destruct (Nat.eq_dec t' t) as [->|Ne]; [rewrite upd_same; discriminate|rewrite upd_other by exact Ne; apply (j_nocall st I)].
    + intros t'. destruct (Nat.eq_dec t' t) as [->|Ne]; [intros _; exact In0|rewrite upd_other by exact Ne; apply (j_idle st I)].
    + intros t' m' x' r'. destruct (Nat.eq_dec t' t) as [->|Ne]; [rewrite upd_same; discriminate|rewrite upd_other by exact Ne]. rewrite OT by exact Ne. apply (j_call st I t' m' x' r').
    + intros v Hv. apply in_app_or in Hv. destruct Hv as [Hv|[<-|[]]]; [apply (j_fl st I v Hv)|]. exists id, (tm m). split; [exact Hid|reflexivity].
    + intros v Hv. destruct (j_cov st I v Hv) as [X|[(t' & H1 & X)|X]]; [left; exact X| |right; right; apply in_or_app; left; exact X].
      destruct (Nat.eq_dec t' t) as [->|Ne]; [right; right; apply in_or_app; right; left; fold p in X; rewrite Ec in X; cbn in X; congruence|]. right. left. exists t'. split; [exact H1|]. rewrite upd_other by exact Ne. exact X.
Qed.
Lemma J_fetch st t m id T' : J st -> f_ins st t = Some m -> tstep (f_t st) [Tracker.EIns t id (tm m)] T' ->
  J (mkF T' (Tracker.EIns t id (tm m) :: f_log st) (f_p st) (f_blk st) (f_lm st) (upd (f_ins st) t None)).
Proof.
  intros I Ei S. pose proof (Tracker.inv_step MAXID N T HN HT _ _ _ _ (j_inv st I) S) as I1.
  pose proof (Tracker.inv2_step MAXID N T HN HT _ _ _ _ (j_inv st I) I1 (j_inv2 st I) S) as I2.
  destruct (p_pc (f_p st) t) as [|m1 x1 r1|m1 x1 r1] eqn:Ec; [rewrite (j_idle st I t Ec) in Ei; discriminate|exfalso; apply (j_nocall st I t m1 x1 r1 Ec)|].
  destruct (j_call st I t m1 x1 r1 Ec) as (G & Nid & C). destruct C as [(_ & X & _)|[(Pr & X & Rn & Mv)|(_ & X & _)]]; try congruence. rewrite Ei in X. injection X as <-.
  assert (Ht : (t < n)%nat) by (apply (call_bound st t I); congruence).
  assert (Em : mv_of (th (p_c (f_p st)) t) = Some m) by (rewrite (i_th _ _ _ _ _ _ _ _ _ _ _ _ (j_pi st I) t Ht), Ec; reflexivity).
  destruct (i_base _ _ _ _ _ _ _ _ _ _ _ _ (j_pi st I)) as [eff Ba]. pose proof (b_cur _ _ _ _ _ Ba t m Ht Em) as Pt.
  replace (stored (th (p_c (f_p st)) t)) with true in Pt by (destruct (th (p_c (f_p st)) t); try discriminate; reflexivity).
  assert (NT : ~ In (m_u m) (p_todo (f_p st))) by (apply (i_out _ _ _ _ _ _ _ _ _ _ _ _ (j_pi st I) t (m_u m) Ht); rewrite Ec; reflexivity).
  inversion S as [| | | | | | | | |? ? ? Er Hu E1 E2 E3| | | | | |]; subst. cbn [app] in *.
  assert (Ein : Tracker.inserted (Tracker.EIns t (Tracker.running (f_t st)) (tm m) :: f_log st) = Tracker.inserted (f_log st) ++ [(Tracker.running (f_t st), tm m)]) by reflexivity.
  split; cbn [f_t f_log f_p f_blk f_lm f_ins]; try apply I; auto.
  - intros v Hv X. rewrite Tracker.status_skip by reflexivity. apply (j_dead st I v Hv X).
  - intros t' u' v'. cbn. destruct (Nat.eq_dec t' t) as [->|Nt]; [rewrite upd_same; discriminate|rewrite upd_other by exact Nt; apply (j_load st I)].
  - intros t' u'. cbn. destruct (Nat.eq_dec t' t) as [->|Nt]; [rewrite upd_same|rewrite upd_other by exact Nt]; apply (j_pq st I).
  - intros t' m' X. cbn. destruct (j_lm st I t' m' X) as (A & B & D). destruct (Nat.eq_dec t' t) as [->|Nt]; [rewrite upd_same|rewrite upd_other by exact Nt; split; [exact A|split; assumption]].
    split; [exact A|]. split; [|exact D]. cbn. apply Tracker.in_rmv. split; [exact B|]. intros Y. apply NT. rewrite <- Y. exact D.
  - intros t' Y. destruct (Nat.eq_dec t' t) as [->|Nt]; [apply upd_same|rewrite upd_other by exact Nt; apply (j_idle st I t' Y)].
  - intros t' m' x r Y. rewrite Ein. cbn [Tracker.th]. destruct (Nat.eq_dec t' t) as [->|Nt].
    + rewrite !upd_same. rewrite Ec in Y. injection Y as <- <- <-. split; [exact G|]. split; [discriminate|]. right. right. split; [exact Pr|]. split; [reflexivity|]. eexists. apply in_or_app. right. left. reflexivity.
    + rewrite !upd_other by exact Nt. destruct (j_call st I t' m' x r Y) as (A & B & C). split; [exact A|]. split; [exact B|]. destruct C as [C|[C|(C1 & C2 & i & C3)]]; [left; exact C|right; left; exact C|]. right. right. split; [exact C1|]. split; [exact C2|]. exists i. apply in_or_app. left. exact C3.
  - intros v Hv. destruct (j_fl st I v Hv) as (i & m' & X & Y). exists i, m'. split; [rewrite Ein; apply in_or_app; left; exact X|exact Y].
  - intros i m' X. rewrite Ein in X. apply in_app_or in X. destruct X as [X|[X|[]]]; [apply (j_ins st I i m' X)|]. injection X as <- <-. exists m. split; [reflexivity|]. split; [exact G|]. split; assumption.
Qed.
Lemma J_step st st' : J st -> jstep st st' -> J st'.
Proof.
  intros I S. destruct S; [eapply J_track|eapply J_read|eapply J_pop|eapply J_begin|eapply J_adv|eapply J_fetch]; eassumption.
Qed.

Lemma jreach_J st0 st : J st0 -> jreach st0 st -> J st.
Proof. intros I R. induction R as [|st st' R IH S]; [exact I|]. eapply J_step; eassumption. Qed.
Lemma jstep_reach st st' : Tracker.reach MAXID N T (f_t st) (f_log st) -> jstep st st' -> Tracker.reach MAXID N T (f_t st') (f_log st').
Proof.
  intros R S. destruct S; cbn [f_t f_log]; try exact R.
  - eapply Tracker.r_step; eassumption.
  - exact (Tracker.r_step _ _ _ _ _ _ _ R H0).
  - exact (Tracker.r_step _ _ _ _ _ _ _ R H1).
Qed.
Lemma jreach_reach st0 st : Tracker.reach MAXID N T (f_t st0) (f_log st0) -> jreach st0 st -> Tracker.reach MAXID N T (f_t st) (f_log st).
Proof. intros I R. induction R as [|st st' R IH S]; [exact I|]. eapply jstep_reach; eassumption. Qed.
Lemma J_start T0 log0 : Tracker.reach MAXID N T T0 log0 -> Tracker.inround T0 = true -> Tracker.inserted log0 = [] ->
  (forall t, Tracker.tpc (Tracker.th T0 t) = Tracker.Idle) -> J (fm_start T0 log0 s0 c0 x0).
Proof.
  intros R Ir Em Id. pose proof (Tracker.inv_reach MAXID N T HN HT _ _ R) as I1. pose proof (Tracker.inv2_reach MAXID N T HN HT _ _ R) as I2.
  split; unfold fm_start; cbn [f_t f_log f_p f_blk f_lm f_ins pinit p_c p_todo p_pc p_acc p_fl p_an]; auto; try discriminate.
  - apply (PI_init H k n mops (fun _ => MAXW) fokm (fun _ _ => True) (fun _ => True) (nodes H) s0 c0 x0 CS HC Kk); [exact (wf_nodes H WF)|exact Logic.I].
  - intros v Hv X. contradiction.
  - intros t u v X. rewrite Id in X. discriminate X.
  - intros t u X. rewrite (proj1 (Tracker.i_thidle _ _ _ _ _ I1 t (Id t))) in X. destruct X.
  - intros t m [].
  - intros t. constructor.
  - intros v [].
  - intros id m X. rewrite Em in X. destruct X.
Qed.
Lemma idle_calls st : J st -> all_idle st -> (forall t, p_pc (f_p st) t = TIdle) /\ quiescent n (p_c (f_p st)).
Proof.
  intros I A. assert (X : forall t, p_pc (f_p st) t = TIdle).
  { intros t. destruct (p_pc (f_p st) t) as [|m x r|m x r] eqn:E; [reflexivity|exfalso; apply (j_nocall st I t m x r E)|].
    exfalso. destruct (j_call st I t m x r E) as (_ & Y & _). apply Y, A. }
  split; [exact X|]. intros t Ht. apply mv_idle. rewrite (i_th _ _ _ _ _ _ _ _ _ _ _ _ (j_pi st I) t Ht), X. reflexivity.
Qed.
Lemma idle_state st : J st -> all_idle st -> started H (sh (p_c (f_p st))) /\ pk (sh (p_c (f_p st))) = k.
Proof.
  intros I A. destruct (idle_calls st I A) as [_ Q]. destruct (i_run _ _ _ _ _ _ _ _ _ _ _ _ (j_pi st I)) as (ls & E & _).
  destruct (conc_quiescent H n mops WF s0 c0 ls (p_c (f_p st)) CS HC E Q) as (A1 & A2 & A3 & _). split; [|congruence]. split; [exact WF|]. split; [exact A2|]. rewrite A1. exact A3.
Qed.
Lemma round_end st : Tracker.reach MAXID N T (f_t st) (f_log st) -> J st -> all_idle st -> (length (nodes H) <= N)%nat ->
  let t := UncRound.itr_of (f_t st) in
  after_round H k P0 (Interleave.view t) (sh (p_c (f_p st))) /\ Interleave.of_ok t /\ Interleave.i_first t + Z.of_nat (length (nodes H)) <= MAXID /\
  (forall v, fixed v = true -> part (sh (p_c (f_p st))) v = P0 v).
Proof.
  intros R I A Ln t.
  assert (Q : forall t, Tracker.pend (Tracker.tpc (tth st t)) = None) by (intros t0; rewrite A; reflexivity).
  assert (Lg : forall id m, In (id, m) (Tracker.inserted (f_log st)) -> In (Tracker.mv_node m) (nodes H) /\ P0 (Tracker.mv_node m) = Some (Tracker.mv_from m) /\ Tracker.mv_from m <> Tracker.mv_to m /\ (Tracker.mv_to m < k)%nat).
  { intros id m X. destruct (j_ins st I id m X) as (cm & -> & (G1 & G2 & G3 & G4 & G5 & _) & _). cbn. auto. }
  destruct (UncRound.C60_searches_deliver N T H k P0 (f_t st) (f_log st) HN HT R Q Lg Ln) as (RO & OF & Ids). fold t in RO, OF, Ids.
  destruct (Tracker.C45_round_ok N T H k P0 (f_t st) (f_log st) HN HT R Q Lg) as [_ Vm].
  assert (Ev : Interleave.view t = Tracker.tracker_of (f_t st)).
  { unfold Interleave.view, t, UncRound.itr_of, Tracker.tracker_of. cbn [Interleave.i_first Interleave.i_order Interleave.i_of]. f_equal. rewrite map_map. apply map_ext. intros j. destruct (Tracker.order (f_t st) j) as [m|]; reflexivity. }
  rewrite <- Ev in Vm. destruct (idle_calls st I A) as [Pc Qu]. destruct (idle_state st I A) as [(_ & C1 & C2) Ek].
  assert (Mo : forall v id m, move_of (Interleave.view t) v = Some (id, m) -> exists i cm, In (i, tm cm) (Tracker.inserted (f_log st)) /\ m_u cm = v /\ m_to cm = r_to m).
  { intros v id m E. destruct (move_of_facts H k P0 _ v id m RO E) as (i & Hi & _ & En & Nd & _).
    assert (X : In (v, r_to m) (valid_moves (t_order (Interleave.view t)))) by (unfold valid_moves; apply in_flat_map; exists (Some m); split; [eapply nth_error_In; exact En|left; congruence]).
    rewrite Vm in X. apply in_map_iff in X. destruct X as ([i' m'] & X1 & X2). cbn [snd] in X1. destruct (j_ins st I i' m' X2) as (cm & -> & _). exists i', cm. cbn in X1. injection X1 as -> ->. auto. }
  assert (Pa : forall v, In v (nodes H) -> part (sh (p_c (f_p st))) v = match move_of (Interleave.view t) v with Some (_, m) => Some (r_to m) | None => P0 v end).
  { intros v Hv. destruct (move_of (Interleave.view t) v) as [[id m]|] eqn:E.
    - destruct (Mo v id m E) as (i & cm & X & <- & <-). destruct (j_ins st I i (tm cm) X) as (cm' & E' & _ & _ & Pt). unfold tm in E'. injection E' as E1 _ E3. rewrite E1, E3. exact Pt.
    - destruct (j_cov st I v Hv) as [X|[(t' & _ & X)|X]]; [apply (todo_part st v I X)|rewrite Pc in X; discriminate X|]. exfalso.
      destruct (j_fl st I v X) as (i & m & X1 & X2). assert (Y : In (v, Tracker.mv_to m) (valid_moves (t_order (Interleave.view t)))) by (rewrite Vm; apply in_map_iff; exists (i, m); cbn; split; [congruence|exact X1]).
      unfold valid_moves in Y. apply in_flat_map in Y. destruct Y as ([m'|] & Y1 & Y2); [|destruct Y2]. destruct Y2 as [Y2|[]]. injection Y2 as Y2 _. apply In_nth_error in Y1. destruct Y1 as [j Y1].
      destruct (ro_valid H k P0 _ RO j m' Y1) as (_ & _ & _ & _ & Z). pose proof (move_of_idx _ _ _ Y1 Z) as W. rewrite Y2, E in W. discriminate W. }
  split; [|split; [exact OF|split; [exact Ids|]]].
  - constructor; auto; [rewrite <- Kk; exact HC|]. intros v Hv. rewrite (prefix_at H k P0 _ _ RO) by lia. rewrite at_all. apply Pa, Hv.
  - intros v Hf. destruct (in_dec Nat.eq_dec v (nodes H)) as [Hv|Hv].
    + rewrite (Pa v Hv). destruct (move_of (Interleave.view t) v) as [[id m]|] eqn:E; [|reflexivity]. exfalso. destruct (Mo v id m E) as (i & cm & X & <- & _).
      destruct (j_ins st I i (tm cm) X) as (cm' & E' & (_ & G & _) & _). unfold tm in E'. injection E' as E1 _ _. congruence.
    + destruct (onat_dec (part (sh (p_c (f_p st))) v) (P0 v)) as [E|E]; [exact E|]. exfalso. destruct (i_ch _ _ _ _ _ _ _ _ _ _ _ _ (j_pi st I) v E) as [X|(i & Hi & X)].
      * apply Hv. destruct (i_fl _ _ _ _ _ _ _ _ _ _ _ _ (j_pi st I)) as (_ & Y & _). apply Y, X.
      * rewrite Pc in X. discriminate X.
Qed.
End Round.
