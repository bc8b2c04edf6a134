(** FMRefine.v - multi-try k-way FM, refineImpl (multitry_kway_fm.cpp:84-220): rounds of concurrent localized searches (FMRound.v), each
    followed - in unconstrained rounds that left the partition imbalanced - by the parallel rebalancer (Rebalance.v) and the interleaving
    of the two move sequences (Interleave.v), and by the rollback to the best prefix (SeqRollback.v), for any number of rounds.
    Left to the environment: what the searches do, which rounds are unconstrained, the number of rounds (time limit, stopping rule). *)
From Verif Require Import Base Spec SpecLemmas PHG PHGProofs Objective GainCache GainCacheProofs Metrics Conc ConcProofs ConcMore ConcRun PropsA Rollback RollbackProofs Scan Revert SeqRollback.
From Verif Require Import LP LPPool LPPoolThms FMRound.
From Verif Require Import Interleave Rebalance RebalanceThms.
From Verif Require Tracker UncRound.

(** revertToBestPrefix (global_rollback.h:61-70): the parallel version (global_rollback.cpp:159-192) returns early if there is no move;
    otherwise it recalculates the gains, scans for the best prefix and reverts the rest in parallel.  The sequential version
    (global_rollback.cpp:395-459) reverts everything in parallel, rolls forward and reverts the rejected suffix in parallel.
    The first index tells whether the move tracker was reset. *)
Inductive rollback (H : hypergraph) (k : nat) (L : nat -> Z) (R : rb_policy) (g : sync_update -> Z) (t : tracker) (init : nat -> Z) (s : phg) :
  bool -> Z -> phg -> Prop :=
| rb_none : numMoves t = 0%nat -> rollback H k L R g t init s false 0 s
| rb_parallel sched rs fs threads n cu c l st : numMoves t <> 0%nat ->
    covers H t sched -> (forall j, clean R (rs j)) -> (forall x, In x fs -> In (fs_thread x) threads) ->
    let gains := snd (recalculateGains R H k t s rs sched) in
    let r := scan_result H k (t_order t) gains L init fs threads in
    scan_ok H k (t_order t) gains L init (numMoves t) fs ->
    crun H n cu (cinit s c) l = Some st -> quiescent n st -> Permutation (begins l) (reverts t (p_index r)) ->
    rollback H k L R g t init s true (p_gain r) (sh st)
| rb_sequential n cu c l st q n2 cu2 c2 l2 st2 :
    crun H n cu (cinit s c) l = Some st -> quiescent n st -> Permutation (begins l) (reverts t 0) ->
    seq_forward H t L g (sh st) = Some q ->
    crun H n2 cu2 (cinit (q_s q) c2) l2 = Some st2 -> quiescent n2 st2 -> Permutation (begins l2) (reverts t (q_best q)) ->
    rollback H k L R g t init s true (q_best_gain q) (sh st2).

(** The trackers after the rollback: moveOrder, moveOfNode and the number of moves as the interleaving left them ([t], [o]), then reset. *)
Definition interleaved (N : nat) (T : Tracker.st) (o : nat -> option Tracker.mv) (t : itr) : Tracker.st :=
  Tracker.mkSt (Tracker.son T) (Tracker.rel T) (Tracker.deact T) (Tracker.high T) (Tracker.first T) (Tracker.first T + Z.of_nat (length (i_order t))) o (i_of t)
    (Tracker.th T) (Tracker.inround T) (Tracker.req T) (Tracker.nsearch T).
Definition without_reset (T : Tracker.st) : Tracker.st :=
  Tracker.mkSt (Tracker.son T) (Tracker.rel T) (Tracker.deact T) (Tracker.high T) (Tracker.first T) (Tracker.running T) (Tracker.order T) (Tracker.ofnode T)
    (Tracker.th T) false (Tracker.req T) (Tracker.nsearch T).
Definition finish_round (N : nat) (T : Tracker.st) (o : nat -> option Tracker.mv) (t : itr) (was_reset : bool) : Tracker.st :=
  if was_reset then Tracker.resetMoves MAXID N (interleaved N T o t)
  else without_reset (Tracker.mkSt (Tracker.son T) (Tracker.rel T) (Tracker.deact T) (Tracker.high T) (Tracker.first T) (Tracker.running T) (Tracker.order T) (i_of t)
    (Tracker.th T) (Tracker.inround T) (Tracker.req T) (Tracker.nsearch T)).
Definition reset_event (was_reset : bool) : list Tracker.event := if was_reset then [Tracker.EReset] else [].

(** The refiner's state between rounds: trackers, their history, partition. *)
Record fmstate := mkFS { fs_t : Tracker.st; fs_log : list Tracker.event; fs_s : phg }.

Section Refine.
Variables (H : hypergraph) (k n : nat) (mops : hypergraph -> sync_update -> list mop) (N : nat) (tasks : Z) (fixed : nat -> bool).
Variables (L Lreb : nat -> Z).                            (* setupMaxPartWeights; context.partition.max_part_weights *)
Variables (R : rb_policy) (g : sync_update -> Z).         (* the objective function *)

(** One round, multitry_kway_fm.cpp:104-170; the last index is the improvement returned by the rollback. *)
Inductive fm_round (S : fmstate) : Z -> fmstate -> Prop :=
(** no border node: the loop ends (:121-123) *)
| fr_break T1 : Tracker.step MAXID N tasks (fs_t S) [Tracker.ERound] T1 ->
    fm_round S 0 (mkFS (without_reset T1) (Tracker.ERound :: fs_log S) (fs_s S))
(** a constrained round, or an unconstrained one whose result is balanced *)
| fr_plain (unconstrained : bool) T1 c x F imp s' rst : Tracker.step MAXID N tasks (fs_t S) [Tracker.ERound] T1 ->
    jreach H k n mops N tasks fixed (fm_start H T1 (Tracker.ERound :: fs_log S) (fs_s S) c x) F -> all_idle F ->
    let s1 := sh (p_c (f_p F)) in
    let t := UncRound.itr_of (f_t F) in
    unconstrained = false \/ (forall b, (b < k)%nat -> wt s1 b <= L b) ->
    rollback H k L R g (view t) (wt (fs_s S)) s1 rst imp s' ->
    fm_round S imp (mkFS (finish_round N (f_t F) (Tracker.order (f_t F)) t rst) (reset_event rst ++ f_log F) s')
(** an unconstrained round that left the partition imbalanced *)
| fr_rebalanced T1 c x F cu c1 n1 RB sched t' o imp s' rst : Tracker.step MAXID N tasks (fs_t S) [Tracker.ERound] T1 ->
    jreach H k n mops N tasks fixed (fm_start H T1 (Tracker.ERound :: fs_log S) (fs_s S) c x) F -> all_idle F ->
    let s1 := sh (p_c (f_p F)) in
    (exists b, (b < k)%nat /\ L b < wt s1 b) ->
    reb_reach H n1 cu Lreb s1 c1 fixed RB -> joined n1 RB ->
    merge_sched k (moves_by_part RB) sched ->
    interleave (nw H) k L (wt (fs_s S)) (UncRound.itr_of (f_t F)) (moves_by_part RB) sched = Some t' ->
    rollback H k L R g (view t') (wt (fs_s S)) (sh (rc RB)) rst imp s' ->
    fm_round S imp (mkFS (finish_round N (f_t F) o t' rst) (reset_event rst ++ f_log F) s').
(** The rounds of one call; the index is overall_improvement. *)
Inductive fm_refine (S : fmstate) : Z -> fmstate -> Prop :=
| fm_done : fm_refine S 0 S
| fm_more imp S1 imp' S2 : fm_refine S imp S1 -> fm_round S1 imp' S2 -> fm_refine S (imp + imp') S2.
End Refine.

(** *** Proofs *)
Section Proofs.
Variables (H : hypergraph) (k n : nat) (mops : hypergraph -> sync_update -> list mop) (N : nat) (tasks : Z) (fixed : nat -> bool) (L Lreb : nat -> Z).
Hypotheses (HN : Z.of_nat N + 23 <= MAXID) (HT : 0 <= tasks <= 20) (Ln : (length (nodes H) <= N)%nat).
Hypotheses (Wn : forall v, In v (nodes H) -> 0 <= nw H v) (We : forall e, In e (edges H) -> 0 <= ew H e) (Wt : total_weight H <= MAXW) (Hk : (0 < k)%nat).

Lemma rollback_result R g obj P0 t init s rst imp s' : In (R, g, obj) [(km1_rollback, km1_gain_of, km1); (cut_rollback, cut_gain_of, cut); (soed_rollback, soed_gain_of, soed)] ->
  after_round H k P0 t s -> (forall p, (p < k)%nat -> init p = block_weight H P0 p) ->
  rollback H k L R g t init s rst imp s' -> round_result H k P0 t L obj imp s' /\ (rst = false -> numMoves t = 0%nat).
Proof.
  intros Ho A Hi Rb. destruct Rb as [E|sched rs fs threads n' cu c l st Nz Cv Cl Ft gains r SO Er Q Pm|n' cu c l st q n2 cu2 c2 l2 st2 E1 Q1 Pm1 Ef E2 Q2 Pm2].
  - split; [|intros _; exact E]. pose proof A as [WF RO HC Ek C Hp]. rewrite E in Hp. change (prefix P0 t 0) with P0 in Hp.
    assert (Ext : obj H P0 = obj H (part s)).
    { assert (Y : forall e v, In e (edges H) -> In v (pins H e) -> P0 v = part s v) by (intros e v He Hv; symmetry; apply Hp, (wf_pins_nodes H WF e v He Hv)).
      destruct Ho as [Ho|[Ho|[Ho|[]]]]; injection Ho as <- <- <-; apply sumZ_ext; intros e He; [apply km1_edge_ext|apply cut_edge_ext|apply soed_edge_ext]; intros v Hv; exact (Y e v He Hv). }
    split; [exists 0%nat; split; [lia|split; [exact Hp|left; reflexivity]]|]. split; [lia|]. split; [lia|]. split; [intros B; eapply balanced_ext; [|exact B]; intros v Hv; symmetry; apply Hp, Hv|].
    split; [|split; assumption]. intros j Hj _. assert (j = 0)%nat as -> by lia. change (prefix P0 t 0) with P0. lia.
  - split; [|discriminate]. destruct (C27_parallel_rollback_round H k P0 t L s sched fs threads n' cu c l st init A We Wn Wt Hk Cv Hi Ft Er Q) as (X1 & X2 & X3).
    destruct Ho as [Ho|[Ho|[Ho|[]]]]; injection Ho as <- <- <-; [apply X1|apply X2|apply X3]; assumption.
  - split; [|discriminate]. destruct (C27_sequential_rollback_round H k P0 t L s n' cu c l st q n2 cu2 c2 l2 st2 A Wn Wt Hk E1 Q1 Pm1) as [_ X]. destruct (X E2 Q2 Pm2) as (X1 & X2 & X3).
    destruct Ho as [Ho|[Ho|[Ho|[]]]]; injection Ho as <- <- <-; [apply X1|apply X2|apply X3]; exact Ef.
Qed.

(** Nodes that are in the same block before and after the whole sequence are in this block after every prefix. *)
Lemma prefix_same P0 t j v : round_ok H k P0 t -> (j <= numMoves t)%nat -> prefix P0 t (numMoves t) v = P0 v -> prefix P0 t j v = P0 v.
Proof.
  intros RO Hj E. rewrite (prefix_at H k P0 t _ RO) in E by lia. rewrite at_all in E. rewrite (prefix_at H k P0 t j RO Hj). unfold at_time.
  destruct (move_of t v) as [[id m]|] eqn:Em; [|reflexivity]. exfalso. destruct (move_of_facts H k P0 t v id m RO Em) as (i & _ & _ & _ & _ & X & Y & _). congruence.
Qed.

(** The rebalancer's report, read against the tracked sequence. *)
Lemma rebalanced_sequence P0 t s1 reb s2 : after_round H k P0 (view t) s1 -> reb_ok H k (part s1) reb ->
  (forall v, In v (nodes H) -> part s2 v = rebalanced k (part s1) reb v) ->
  reb_ok H k (prefix P0 (view t) (numMoves (view t))) reb /\
  forall v, In v (nodes H) -> part s2 v = rebalanced k (prefix P0 (view t) (numMoves (view t))) reb v.
Proof.
  intros A RBk RBp. set (P1 := prefix P0 (view t) (numMoves (view t))).
  assert (PE : forall v, In v (nodes H) -> part s1 v = P1 v) by (intros v Hv; apply (ar_part _ _ _ _ _ A v Hv)).
  split.
  - constructor; [|apply (rb_nodup _ _ _ _ RBk)]. intros p m Hp Hm. destruct (rb_valid _ _ _ _ RBk p m Hp Hm) as (Y1 & Y2 & Y3 & Y4). split; [exact Y1|]. split; [exact Y2|]. split; [rewrite <- (PE _ Y1); exact Y3|exact Y4].
  - intros v Hv. rewrite (RBp v Hv). unfold rebalanced. generalize (PE v Hv). generalize (part s1) P1. intros Q1 Q2.
    assert (G : forall l P Q, P v = Q v -> moves P l v = moves Q l v).
    { induction l as [|[u b] l IH]; intros P Q E; [exact E|]. cbn [moves fold_left]. apply IH. unfold move. cbn [fst snd]. destruct (Nat.eqb v u) eqn:Ev; unfold upd; rewrite ?Ev; auto. }
    intros E. apply G. exact E.
Qed.

Lemma finish_reach T log t o rst : Tracker.reach MAXID N tasks T log -> Tracker.inround T = true -> (forall i, Tracker.tpc (Tracker.th T i) = Tracker.Idle) ->
  i_first t = Tracker.first T -> of_ok t -> (length (i_order t) <= N)%nat ->
  (rst = false -> length (i_order t) = 0%nat /\ Tracker.running T = Tracker.first T) ->
  Tracker.reach MAXID N tasks (finish_round N T o t rst) (reset_event rst ++ log) /\ Tracker.inround (finish_round N T o t rst) = false.
Proof.
  intros R Ir Id Ef OF Le Z0. unfold finish_round, reset_event.
  assert (Lt : forall u, i_of t u < Tracker.first T + Z.of_nat (length (i_order t))).
  { intros u. destruct (Z_lt_le_dec (i_of t u) (i_first t)) as [X|X]; [lia|]. destruct (OF u X) as (i & m & E & En & _). assert (i < length (i_order t))%nat by (apply nth_error_Some; congruence). lia. }
  destruct rst.
  - split; [|unfold Tracker.resetMoves; destruct (_ <=? _); reflexivity]. eapply Tracker.r_step; [exact R|]. unfold interleaved. apply Tracker.s_reset_unc; auto. lia.
  - destruct (Z0 eq_refl) as [Z1 Z2]. split; [|reflexivity]. eapply (Tracker.r_step _ _ _ T log []); [exact R|]. unfold without_reset. cbn. apply Tracker.s_empty; auto. intros u. specialize (Lt u). rewrite Z1 in Lt. lia.
Qed.

Definition fm_ready (S : fmstate) : Prop :=
  Tracker.reach MAXID N tasks (fs_t S) (fs_log S) /\ Tracker.inround (fs_t S) = false /\ started H (fs_s S) /\ pk (fs_s S) = k.

Lemma round_begin S T1 : fm_ready S -> Tracker.step MAXID N tasks (fs_t S) [Tracker.ERound] T1 ->
  Tracker.reach MAXID N tasks T1 (Tracker.ERound :: fs_log S) /\ Tracker.inround T1 = true /\ Tracker.inserted (Tracker.ERound :: fs_log S) = [] /\
  (forall t, Tracker.tpc (Tracker.th T1 t) = Tracker.Idle) /\ Tracker.nsearch T1 = 0.
Proof.
  intros (R & Ir & _) S1. pose proof (Tracker.inv2_reach MAXID N tasks HN HT _ _ R) as I2.
  assert (Em : Tracker.inserted (fs_log S) = []) by (apply (Tracker.m_empty _ _ _ _ I2); left; exact Ir).
  split; [exact (Tracker.r_step _ _ _ _ _ _ _ R S1)|]. inversion S1; subst. cbn. auto.
Qed.

Lemma plain_end S T1 c x F : fm_ready S -> Tracker.step MAXID N tasks (fs_t S) [Tracker.ERound] T1 ->
  jreach H k n mops N tasks fixed (fm_start H T1 (Tracker.ERound :: fs_log S) (fs_s S) c x) F -> all_idle F ->
  let s1 := sh (p_c (f_p F)) in let t := UncRound.itr_of (f_t F) in
  Tracker.reach MAXID N tasks (f_t F) (f_log F) /\ Tracker.inround (f_t F) = true /\ started H s1 /\ pk s1 = k /\
  after_round H k (part (fs_s S)) (view t) s1 /\ of_ok t /\ i_first t + Z.of_nat (length (nodes H)) <= MAXID /\
  i_first t = Tracker.first (f_t F) /\ (length (i_order t) <= N)%nat /\ Tracker.running (f_t F) = Tracker.first (f_t F) + Z.of_nat (length (i_order t)) /\
  (forall v, fixed v = true -> part s1 v = part (fs_s S) v) /\ (forall m, In m (i_order t) -> valid m = true).
Proof.
  intros Rd S1 Jr Ai s1 t. destruct (round_begin S T1 Rd S1) as (R1 & Ir & Em & Id & _). destruct Rd as (_ & _ & (WF & CS & HC) & Ek).
  pose proof (J_start H k n mops N tasks fixed HN HT WF (fs_s S) c x CS HC Ek T1 (Tracker.ERound :: fs_log S) R1 Ir Em Id) as J0.
  pose proof (jreach_J H k n mops N tasks fixed HN HT WF Wn Wt (fs_s S) c x Ek _ F J0 Jr) as J1.
  pose proof (jreach_reach H k n mops N tasks fixed (fm_start H T1 (Tracker.ERound :: fs_log S) (fs_s S) c x) F R1 Jr) as R2.
  destruct (round_end H k n mops N tasks fixed HN HT WF Wn (fs_s S) c CS HC Ek F R2 J1 Ai Ln) as (A & OF & Ids & Fx). fold s1 t in A, OF, Ids, Fx.
  destruct (idle_state H k n mops N tasks fixed WF (fs_s S) c CS HC Ek F J1 Ai) as [St Pk].
  destruct (Tracker.C45_move_ids MAXID N tasks HN HT _ _ R2) as (_ & _ & E1 & _ & _ & E2 & E3).
  assert (El : length (i_order t) = length (Tracker.inserted (f_log F))) by (unfold t, UncRound.itr_of; cbn [i_order]; rewrite map_length, seq_length; lia).
  split; [exact R2|]. split; [apply (j_round _ _ _ _ _ _ _ _ _ F J1)|]. split; [exact St|]. split; [exact Pk|]. split; [exact A|]. split; [exact OF|]. split; [exact Ids|]. split; [reflexivity|].
  split; [lia|]. split; [lia|]. split; [exact Fx|].
  intros m Hm. destruct (E3 ltac:(intros i; rewrite Ai; reflexivity)) as (_ & Or & _). unfold t, UncRound.itr_of in Hm. cbn [i_order] in Hm. apply in_map_iff in Hm. destruct Hm as (j & <- & Hj). apply in_seq in Hj.
  destruct (nth_error (Tracker.inserted (f_log F)) j) as [[id m']|] eqn:En; [|apply nth_error_None in En; lia]. destruct (Or j id m' En) as [-> _]. reflexivity.
Qed.

Definition fm_good (obj : hypergraph -> partition -> Z) (S : fmstate) (imp : Z) (S' : fmstate) : Prop :=
  fm_ready S' /\ imp = obj H (part (fs_s S)) - obj H (part (fs_s S')) /\ 0 <= imp /\
  (balanced H (part (fs_s S)) k L -> balanced H (part (fs_s S')) k L) /\
  (forall v, In v (nodes H) -> fixed v = true -> part (fs_s S') v = part (fs_s S) v).

Lemma round_good R g obj S imp S' : In (R, g, obj) [(km1_rollback, km1_gain_of, km1); (cut_rollback, cut_gain_of, cut); (soed_rollback, soed_gain_of, soed)] ->
  fm_ready S -> fm_round H k n mops N tasks fixed L Lreb R g S imp S' -> fm_good obj S imp S'.
Proof.
  intros Ho Rd Fr. destruct Fr as [T1 S1|unc T1 c x F imp s' rst S1 Jr Ai s1 t Bal Rb|T1 c x F cu c1 n1 RB sched t' o imp s' rst S1 Jr Ai s1 Ov Rr Jd Ms Il Rb].
  - destruct (round_begin S T1 Rd S1) as (R1 & Ir & _ & _ & Ns). destruct Rd as (_ & _ & St & Ek). unfold fm_good, fm_ready. cbn [fs_t fs_log fs_s].
    split; [|split; [lia|split; [lia|split; auto]]]. split; [|split; [reflexivity|split; assumption]].
    change (Tracker.ERound :: fs_log S) with ([] ++ Tracker.ERound :: fs_log S). eapply Tracker.r_step; [exact R1|]. apply Tracker.s_break; assumption.
  - destruct (plain_end S T1 c x F Rd S1 Jr Ai) as (R2 & Ir & St1 & Pk1 & A & OF & Ids & Ef & Le & Ru & Fx & Va). fold s1 t in St1, Pk1, A, OF, Ids, Ef, Le, Ru, Fx.
    destruct Rd as (_ & _ & (WF & CS & HC) & Ek).
    assert (Hi : forall p, (p < k)%nat -> wt (fs_s S) p = block_weight H (part (fs_s S)) p) by (intros p Hp; apply (c_wt _ _ CS); lia).
    destruct (rollback_result R g obj (part (fs_s S)) (view t) (wt (fs_s S)) s1 rst imp s' Ho A Hi Rb) as ((( j & Hj & Pj & _) & E1 & E2 & E3 & _ & Cs & Pk') & Z0).
    assert (Nv : numMoves (view t) = length (i_order t)) by (unfold numMoves, view; cbn [t_order]; apply map_length).
    destruct (finish_reach (f_t F) (f_log F) t (Tracker.order (f_t F)) rst R2 Ir Ai Ef OF Le) as [R3 Ir3]; [intros X; specialize (Z0 X); lia|].
    unfold fm_good, fm_ready. cbn [fs_t fs_log fs_s]. split; [|split; [exact E1|split; [exact E2|split; [exact E3|]]]].
    + split; [exact R3|]. split; [exact Ir3|]. split; [|exact Pk']. split; [exact WF|]. split; [exact Cs|]. rewrite Pk'. intros v Hv. rewrite (Pj v Hv).
      rewrite (prefix_at H k _ _ j (ar_round _ _ _ _ _ A) Hj). apply (at_complete H k _ _ j (ar_round _ _ _ _ _ A)); [rewrite <- Ek; exact HC|exact Hv].
    + intros v Hv Hf. rewrite (Pj v Hv). apply (prefix_same _ _ j v (ar_round _ _ _ _ _ A) Hj). rewrite <- (ar_part _ _ _ _ _ A v Hv). apply Fx, Hf.
  - destruct (plain_end S T1 c x F Rd S1 Jr Ai) as (R2 & Ir & St1 & Pk1 & A & OF & Ids & Ef & Le & Ru & Fx & Va). fold s1 in St1, Pk1, A, OF, Ids, Ef, Le, Ru, Fx.
    set (t := UncRound.itr_of (f_t F)) in *. destruct Rd as (_ & _ & (WF & CS & HC) & Ek).
    assert (Hi : forall p, (p < k)%nat -> wt (fs_s S) p = block_weight H (part (fs_s S)) p) by (intros p Hp; apply (c_wt _ _ CS); lia).
    destruct (C61_rebalancer H n1 cu Lreb s1 c1 fixed RB St1 Wn Rr Jd) as (St2 & Pk2 & Mv & _).
    destruct (C61_reported_moves H n1 cu Lreb s1 c1 fixed RB St1 Wn Rr Jd) as (_ & _ & _ & _ & RBk & RBp). rewrite Pk1 in RBk, RBp.
    assert (HC' : complete H (part (fs_s S)) k) by (rewrite <- Ek; exact HC). pose proof (ar_round _ _ _ _ _ A) as RO.
    destruct (rebalanced_sequence (part (fs_s S)) t s1 (moves_by_part RB) (sh (rc RB)) A RBk ltac:(intros v _; symmetry; apply RBp)) as [RBk' PR].
    destruct (interleave_ok H k (part (fs_s S)) t (moves_by_part RB) sched L (wt (fs_s S)) WF Wn HC' RO OF RBk' Ms Hi Ids) as (t2 & E2 & F2 & RO2 & OF2 & Pf2 & Pm2 & _).
    rewrite Il in E2. injection E2 as <-.
    destruct (UncRound.C60_interleaved_sequence H k (part (fs_s S)) t (moves_by_part RB) sched L (wt (fs_s S)) WF Wn HC' RO OF Ids RBk' Ms Hi) as (t3 & E3 & _ & _ & Le3 & _).
    rewrite Il in E3. injection E3 as <-.
    assert (A2 : after_round H k (part (fs_s S)) (view t') (sh (rc RB))).
    { constructor; auto; [congruence|apply St2|]. intros v Hv. rewrite Pf2. apply PR, Hv. }
    destruct (rollback_result R g obj (part (fs_s S)) (view t') (wt (fs_s S)) (sh (rc RB)) rst imp s' Ho A2 Hi Rb) as ((( j & Hj & Pj & _) & E1 & E2 & E3 & _ & Cs & Pk') & Z0).
    assert (Nv : numMoves (view t') = length (i_order t')) by (unfold numMoves, view; cbn [t_order]; apply map_length).
    assert (Zr : rst = false -> length (i_order t') = 0%nat /\ Tracker.running (f_t F) = Tracker.first (f_t F)).
    { intros X. specialize (Z0 X). split; [lia|]. destruct (i_order t) as [|m l] eqn:Eo; [rewrite Ru; cbn; lia|]. exfalso.
      assert (Hm : In m (i_order t)) by (rewrite Eo; left; reflexivity). assert (Ne : i_order t' = []) by (destruct (i_order t'); [reflexivity|cbn in *; lia]). rewrite Ne in Pm2. apply Permutation_nil in Pm2.
      assert (Y : exists m', In m' (filter valid (order1 k t (moves_by_part RB)) ++ concat (map (fun p => map (mg t) (moves_by_part RB p)) (seq 0 k)))).
      { destruct (rebb k (moves_by_part RB) (im_node m)) eqn:Eb.
        - unfold rebb in Eb. apply mem_In in Eb. apply in_map_iff in Eb. destruct Eb as (r & _ & Hr). exists (mg t r). apply all_in. right. exists r. split; [exact Hr|reflexivity].
        - exists m. apply all_in. left. split; [exact Hm|]. split; [apply Va; rewrite <- Eo; exact Hm|exact Eb]. }
      destruct Y as [m' Y]. rewrite Pm2 in Y. destruct Y. }
    destruct (finish_reach (f_t F) (f_log F) t' o rst R2 Ir Ai ltac:(congruence) OF2 ltac:(lia) Zr) as [R3 Ir3].
    unfold fm_good, fm_ready. cbn [fs_t fs_log fs_s]. split; [|split; [exact E1|split; [exact E2|split; [exact E3|]]]].
    + split; [exact R3|]. split; [exact Ir3|]. split; [|exact Pk']. split; [exact WF|]. split; [exact Cs|]. rewrite Pk'. intros v Hv. rewrite (Pj v Hv).
      rewrite (prefix_at H k _ _ j RO2 Hj). apply (at_complete H k _ _ j RO2 HC' v Hv).
    + intros v Hv Hf. rewrite (Pj v Hv). apply (prefix_same _ _ j v RO2 Hj). rewrite <- (ar_part _ _ _ _ _ A2 v Hv).
      destruct (onat_dec (part (sh (rc RB)) v) (part s1 v)) as [Y|Y]; [rewrite Y; apply Fx, Hf|]. destruct (Mv v Y) as (_ & Y2 & _). congruence.
Qed.

Lemma refine_good R g obj S imp S' : In (R, g, obj) [(km1_rollback, km1_gain_of, km1); (cut_rollback, cut_gain_of, cut); (soed_rollback, soed_gain_of, soed)] ->
  fm_ready S -> fm_refine H k n mops N tasks fixed L Lreb R g S imp S' -> fm_good obj S imp S'.
Proof.
  intros Ho Rd Fr. induction Fr as [|imp S1 imp' S2 Fr IH Fd].
  - split; [exact Rd|]. split; [lia|]. split; [lia|]. split; auto.
  - destruct IH as (A1 & A2 & A3 & A4 & A5). destruct (round_good R g obj S1 imp' S2 Ho A1 Fd) as (B1 & B2 & B3 & B4 & B5).
    split; [exact B1|]. split; [lia|]. split; [lia|]. split; [auto|]. intros v Hv Hf. rewrite (B5 v Hv Hf). apply A5; assumption.
Qed.
End Proofs.
