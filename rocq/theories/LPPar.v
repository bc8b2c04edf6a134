(** LPPar.v - label propagation with parallel loops (execute_sequential = false, the default). *)
From Verif Require Import Base Spec SpecLemmas PHG PHGProofs Objective GainCache GainCacheProofs Metrics PropsA Conc ConcProofs ConcMore ConcRun DetLP DetLPThms Jet JetThms JetProps Scan GainComp LP LPThms LPSeq LPPool LPPoolThms.

Section Par.
Variables (H : hypergraph) (k : nat) (L PB : nat -> Z) (o : objective) (fixed : nat -> bool) (mu rebal : bool) (thr : Z).
Definition cap (u : bool) (b : nat) : Z := if u then MAXW else L b.
(** moveVertex, cpp:44-95, as a task: the best move is computed from values read while other threads change them, so every target and
    every gain that passes the tests of cpp:56-66 is possible; the node is skipped otherwise. *)
Definition pmay (u : bool) (P : partition) (m : mv) (x : Z) : bool :=
  negb (fixed (m_u m)) && negb (Nat.eqb (m_from m) (m_to m)) && (m_to m <? k)%nat && (m_max m =? cap u (m_to m)) && ((x <? 0) || (rebal && (x =? 0))).
(** cpp:73-92: a move whose gain is neither the computed one nor good is reverted *)
Definition accepted (x a : Z) : bool := (a =? x) || (a <=? 0).
Definition pagain (u : bool) (m : mv) (x : Z) (b : bool) (a : Z) : option mv :=
  if (u || b) && negb (accepted x a) then Some (mkMv (m_u m) (m_to m) (m_from m) (cap u (m_from m))) else None.
(** cpp:79-83 *)
Definition pfin (u : bool) (m : mv) (x : Z) (r b : bool) (a : Z) (P : partition) (y : nact) : nact :=
  if negb r && b && accepted x a && negb u then activateNN H mu thr true P y (m_u m) else y.
(** The decision of a task if it computes its move from the current state without interference; coins: none is tossed. *)
Definition undisturbed (u : bool) (st : pst) (l : plabel) : bool :=
  let s := sh (p_c st) in
  match l with
  | PSkip v => match part s v with
               | None => false
               | Some from => let '(to, x) := computeMaxGainMove H o s L false false false u (fun _ => false) 0 from v in
                              negb (isBorderNode H s v && negb (fixed v) && negb (Nat.eqb from to) && perform_move PB rebal s from to x)
               end
  | PTake _ m x => let '(to, x') := computeMaxGainMove H o s L false false false u (fun _ => false) 0 (m_from m) (m_u m) in
                   isBorderNode H s (m_u m) && Nat.eqb to (m_to m) && (x' =? x) && perform_move PB rebal s (m_from m) to x
  | _ => true
  end.
Local Notation pstep u n mops := (LPPool.pstep H n mops (gain_of o) (fun _ _ => true) (pmay u) (pagain u) (pfin u)).
Definition pstepU (u : bool) (n : nat) (mops : hypergraph -> sync_update -> list mop) (st : pst) (l : plabel) : option pst :=
  if undisturbed u st l then pstep u n mops st l else None.
(** moveActiveNodes, parallel (cpp:247-252), by any number of threads.  [ud]: only executions whose decisions are undisturbed. *)
Definition pphase (ud u : bool) (act : list nat) (s : phg) (x : nact) (s' : phg) (d : Z) (mvd : list nat) (y : nact) : Prop :=
  exists n mops c ls st, fold_opt (if ud then pstepU u n mops else pstep u n mops) (pinit s c act x) ls = Some st /\ pdone n st /\
    s' = sh (p_c st) /\ d = sumZ (gain_of o) (log (p_c st)) /\ Permutation mvd (p_fl st) /\ y = p_an st.
Lemma ud_prun (ud u : bool) n mops l : forall st st', fold_opt (if ud then pstepU u n mops else pstep u n mops) st l = Some st' -> prun H n mops (gain_of o) (fun _ _ => true) (pmay u) (pagain u) (pfin u) st l = Some st'.
Proof.
  unfold prun. destruct ud; [|auto]. induction l as [|a l IH]; intros st st' E; cbn [fold_opt] in *; [exact E|]. unfold pstepU at 1 in E. destruct (undisturbed u st a); [|discriminate].
  destruct (LPPool.pstep H n mops (gain_of o) (fun _ _ => true) (pmay u) (pagain u) (pfin u) st a); [apply IH; exact E|discriminate].
Qed.

(** The parallel rollback, cpp:299-305. *)
Definition rskip (od : nat -> option nat) (P : partition) (v : nat) : bool := opt_eqb (P v) (od v).
Definition rmay (od : nat -> option nat) (P : partition) (m : mv) (x : Z) : bool := opt_eqb (Some (m_to m)) (od (m_u m)) && negb (Nat.eqb (m_from m) (m_to m)) && (m_max m =? MAXW).
Definition prollb (l : list nat) (od : nat -> option nat) (s s' : phg) : Prop :=
  exists n mops c ls st, prun H n mops (gain_of o) (rskip od) (rmay od) (fun _ _ _ _ => None) (fun _ _ _ _ _ _ y => y) (pinit s c l (fresh od (fun _ => false))) ls = Some st /\ pdone n st /\ s' = sh (p_c st).

(** *** Proofs *)
Hypotheses (Wn : forall v, In v (nodes H) -> 0 <= nw H v) (Wt : total_weight H <= MAXW).
Local Notation rd := (ready H k).
Local Notation obj := (obj_spec o H).
Lemma log_obj n mops s c ls st : rd s -> crun H n mops (cinit s c) ls = Some st -> quiescent n st -> sumZ (gain_of o) (log st) = obj (part (sh st)) - obj (part s).
Proof.
  intros [(WF & C & HC) K] R Q. destruct o; cbn [DetLP.gain_of obj_spec].
  - apply (conc_gains H n mops WF cut_gain_of cut_edge (cut_edge_gain H) (cut_edge_ext H) s c ls st C HC R Q).
  - apply (conc_gains H n mops WF km1_gain_of km1_edge (km1_edge_gain H) (km1_edge_ext H) s c ls st C HC R Q).
  - apply (conc_gains H n mops WF soed_gain_of soed_edge (soed_edge_gain H) (soed_edge_ext H) s c ls st C HC R Q).
Qed.
Definition mokp (u : bool) (m : mv) : Prop := fixed (m_u m) = false.
(** Activation data: a duplicate-free list of nodes. *)
Definition Qn (y : nact) : Prop := incl (nx y) (nodes H) /\ NoDup (nx y) /\ forall v, In v (nx y) -> inx y v = true.
Lemma activate1_Q P y v : In v (nodes H) -> Qn y -> Qn (activate1 mu true P y v).
Proof.
  intros Hv (A & B & C). unfold activate1. cbn [orb]. destruct (inx y v) eqn:Ix; [split; auto|]. split; [|split]; cbn [nx inx].
  - intros w Hw. apply in_app_or in Hw. destruct Hw as [Hw|[<-|[]]]; [apply A; exact Hw|exact Hv].
  - apply NoDup_app_intro_single; [exact B|]. intros X. rewrite (C v X) in Ix. discriminate.
  - intros w Hw. unfold upd. destruct (Nat.eqb_spec w v) as [->|N]; [reflexivity|]. apply in_app_or in Hw. destruct Hw as [Hw|[Hw|[]]]; [apply C; exact Hw|congruence].
Qed.
Lemma activate_Q P y hn : wf_hg H -> In hn (nodes H) -> Qn y -> Qn (activateNN H mu thr true P y hn).
Proof.
  intros WF Hh. unfold activateNN. cbn [andb].
  assert (A2 : forall l y, incl l (nodes H) -> Qn y -> Qn (fold_left (activate1 mu true P) l y)).
  { induction l as [|v l IH]; intros z S I; cbn [fold_left]; [exact I|]. apply IH; [intros w Hw; apply S; right; exact Hw|]. apply activate1_Q; [apply S; left; reflexivity|exact I]. }
  assert (A3 : forall l y, incl l (edges H) -> Qn y -> Qn (fold_left (activate_edge H mu thr true P) l y)).
  { induction l as [|e l IH]; intros z S I; cbn [fold_left]; [exact I|]. apply IH; [intros w Hw; apply S; right; exact Hw|]. unfold activate_edge. destruct (_ && _); [|exact I].
    apply A2; [|exact I]. intros v Hv. apply (wf_pins_nodes H WF e v); [apply S; left; reflexivity|exact Hv]. }
  intros I. assert (Y : Qn (fold_left (activate_edge H mu thr true P) (inc H hn) y)) by (apply A3; [intros e He; apply (wf_inc H WF hn e Hh); exact He|exact I]).
  set (z := fold_left (activate_edge H mu thr true P) (inc H hn) y) in *. destruct (inx z hn) eqn:Ix; cbn [negb]; [exact Y|]. destruct Y as (A & B & C). split; [|split]; cbn [nx inx].
  - intros w Hw. apply in_app_or in Hw. destruct Hw as [Hw|[<-|[]]]; [apply A; exact Hw|exact Hh].
  - apply NoDup_app_intro_single; [exact B|]. intros X. rewrite (C hn X) in Ix. discriminate.
  - intros w Hw. unfold upd. destruct (Nat.eqb_spec w hn) as [->|N]; [reflexivity|]. apply in_app_or in Hw. destruct Hw as [Hw|[Hw|[]]]; [apply C; exact Hw|congruence].
Qed.

Lemma phase_pool (u : bool) (Q : nact -> Prop) n mops c ls st act s x : (forall m x r b a P y, In (m_u m) (nodes H) -> Q y -> Q (pfin u m x r b a P y)) -> Q x ->
  prun H n mops (gain_of o) (fun _ _ => true) (pmay u) (pagain u) (pfin u) (pinit s c act x) ls = Some st -> pdone n st -> rd s -> incl act (nodes H) -> NoDup act ->
  rd (sh (p_c st)) /\ sumZ (gain_of o) (log (p_c st)) = obj (part (sh (p_c st))) - obj (part s) /\ NoDup (p_fl st) /\ incl (p_fl st) act /\
  (forall v, part (sh (p_c st)) v <> part s v -> In v (p_fl st)) /\ (forall v, In v (p_fl st) -> fixed v = false) /\ Q (p_an st) /\
  (forall b, (b < k)%nat -> block_weight H (part (sh (p_c st))) b <= Z.max (cap u b) (block_weight H (part s) b)).
Proof.
  intros HQ Qx E Dn R An Nd. pose proof R as [(WF & C & HC) K].
  destruct (pool_done H k n mops (gain_of o) (fun _ _ => true) (pmay u) (pagain u) (pfin u) WF Wn Wt (cap u) (mokp u) (fun _ _ => True) Q) with (act := act) (s0 := s) (c0 := c) (x0 := x) (l := ls) (st := st)
    as (A1 & A2 & A3 & A4 & A5 & A6 & _ & A7 & A8 & li & A9 & A10 & A11); auto.
  - intros P m y Hm Pm Hv. unfold pmay in Hm. repeat (apply andb_true_iff in Hm; destruct Hm as [Hm ?]). apply negb_true_iff in Hm. unfold mokp. repeat match goal with X : negb _ = true |- _ => apply negb_true_iff in X end. split; [apply Nat.eqb_neq; assumption|]. split; [apply Nat.ltb_lt; assumption|]. split; [lia|exact Hm].
  - intros m y b a m' Hm Mm. unfold pagain in Hm. destruct ((u || b) && negb (accepted y a)) eqn:G; [|discriminate]. injection Hm as <-. split; [reflexivity|]. split; [|exact Mm]. apply andb_true_iff in G. destruct G as [G _]. apply orb_true_iff in G. destruct G as [->|G]; [right; intros q; reflexivity|left; exact G].
  - split; [split; [split; [exact WF|split; [exact A2|rewrite A1; exact A3]]|exact A1]|]. split; [eapply log_obj; eauto|]. split; [exact A4|]. split; [exact A5|]. split; [exact A6|].
    split; [intros v Hv; destruct (A7 v Hv) as (m & M1 & M2); unfold mokp in M1; congruence|]. split; [exact A8|].
    intros b Hb. apply (conc_balance H n mops WF s c li (p_c st) (cap u) C HC Wn A10 A9 b). lia.
Qed.
Theorem pphase_good ud : phase_good H k L o fixed true (pphase ud).
Proof.
  assert (FX : forall st s, (forall v, part (sh (p_c st)) v <> part s v -> In v (p_fl st)) -> (forall v, In v (p_fl st) -> fixed v = false) -> forall v, fixed v = true -> part (sh (p_c st)) v = part s v).
  { intros st s A B v Hv. destruct (part (sh (p_c st)) v) as [a|] eqn:E1, (part s v) as [b|] eqn:E2; try reflexivity.
    - destruct (Nat.eq_dec a b) as [->|N]; [reflexivity|]. exfalso. assert (fixed v = false) by (apply B, A; congruence). congruence.
    - exfalso. assert (fixed v = false) by (apply B, A; congruence). congruence.
    - exfalso. assert (fixed v = false) by (apply B, A; congruence). congruence. }
  split.
  - intros u act s x s' d mvd y (n & mops & c & ls & st & E & Dn & -> & -> & Pm & ->) R An Gd. apply ud_prun in E.
    destruct (phase_pool u (fun _ => True) n mops c ls st act s x) as (B1 & B2 & B3 & B4 & B5 & B6 & _ & _); auto.
    split; [exact B1|]. split; [exact B2|]. split; [intros v Hv; rewrite Pm; apply B5; exact Hv|]. split; [intros v Hv; apply B4; rewrite <- Pm; exact Hv|]. apply FX; assumption.
  - intros act s x s' d mvd y (n & mops & c & ls & st & E & Dn & -> & -> & Pm & ->) R An Gd. apply ud_prun in E.
    destruct (phase_pool true (fun y => y = x) n mops c ls st act s x) as (_ & _ & _ & _ & _ & _ & B & _); auto.
    intros m z r b a P y _ ->. unfold pfin. cbn [negb]. rewrite andb_false_r. reflexivity.
  - intros act s x s' d mvd y (n & mops & c & ls & st & E & Dn & -> & -> & Pm & ->) R An Gd. apply ud_prun in E. pose proof R as [(WF & _) _]. split.
    + destruct (phase_pool false (fun _ => True) n mops c ls st act s x) as (_ & _ & _ & _ & _ & _ & _ & B); auto.
    + intros Nx. destruct (phase_pool false Qn n mops c ls st act s x) as (_ & _ & _ & _ & _ & _ & (B1 & B2 & _) & _); auto.
      * intros m z r b a P y Hv Qy. unfold pfin. destruct (_ && _); [apply activate_Q; assumption|exact Qy].
      * split; [rewrite Nx; intros v []|]. split; [rewrite Nx; constructor|]. rewrite Nx. intros v [].
      * split; [exact B1|intros _; exact B2].
Qed.
(** The flags set by the loop belong to distinct entries. *)
Theorem pphase_nodup ud u act s x s' d mvd y : pphase ud u act s x s' d mvd y -> rd s -> incl act (nodes H) -> NoDup act -> NoDup mvd.
Proof.
  intros (n & mops & c & ls & st & E & Dn & -> & -> & Pm & ->) R An Gd. apply ud_prun in E.
  destruct (phase_pool u (fun _ => True) n mops c ls st act s x) as (_ & _ & B & _); auto. rewrite Pm. exact B.
Qed.
(** The parallel rollback is right if no node occurs twice in its list. *)
Theorem prollb_good : rollb_good H k (fun l od s s' => NoDup l /\ prollb l od s s').
Proof.
  intros l od s s' (Nd & n & mops & c & ls & st & E & Dn & ->) R An Vo. pose proof R as [(WF & C & HC) K].
  destruct (pool_done H k n mops (gain_of o) (rskip od) (rmay od) (fun _ _ _ _ => None) (fun _ _ _ _ _ _ y => y) WF Wn Wt (fun _ => MAXW) (fun m => od (m_u m) = Some (m_to m)) (fun p v => In v l -> p = od v) (fun _ => True)) with (act := l) (s0 := s) (c0 := c) (x0 := fresh od (fun _ => false)) (l := ls) (st := st)
    as (A1 & A2 & A3 & A4 & A5 & A6 & A7 & _); auto.
  - intros P m y Hm Pm Hv. unfold rmay in Hm. apply andb_true_iff in Hm. destruct Hm as [Hm M3]. apply andb_true_iff in Hm. destruct Hm as [M1 M2]. apply opt_eqb_eq in M1. apply negb_true_iff, Nat.eqb_neq in M2.
    split; [exact M2|]. split; [|split; [lia|congruence]].
    destruct (Vo _ Hv) as (b & Eb & Lb). congruence.
  - intros m x b a m' X. discriminate X.
  - intros P v Hs _. apply opt_eqb_eq. exact Hs.
  - intros m b Mm NL _. destruct b; [congruence|]. exfalso. destruct NL as [X|X]; [discriminate X|]. apply X. intros q. reflexivity.
  - split; [split; [split; [exact WF|split; [exact A2|rewrite A1; exact A3]]|exact A1]|]. intros v. destruct (mem v l) eqn:M.
    + apply mem_In in M. apply A7; exact M.
    + apply mem_false in M. destruct (part (sh (p_c st)) v) as [a|] eqn:E1, (part s v) as [b|] eqn:E2; try reflexivity.
      * destruct (Nat.eq_dec a b) as [->|N]; [reflexivity|]. exfalso. apply M, A5, A6. congruence.
      * exfalso. apply M, A5, A6. congruence.
      * exfalso. apply M, A5, A6. congruence.
Qed.
End Par.
