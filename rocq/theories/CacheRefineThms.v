(** CacheRefineThms.v - C85: after any sequence of parallel refiners every cached gain is exact. *)
From Verif Require Import Base Spec SpecLemmas PHG PHGProofs Objective GainCache GainCacheProofs Metrics PropsA Conc ConcProofs ConcMore ConcRun Scan GainComp LP LPThms LPPool LPPoolThms LPPar DetLP DetLPThms Rebalance RebalanceThms DetFlow DetFlowThms DetFlowProps CacheRefine.

(** *** The steps of changeNodePart do not read the penalty terms *)
Record shifted (d : nat -> Z) (a b : cst) : Prop := {
  h_sh : sh b = sh a; h_lk : lk b = lk a; h_th : th b = th a; h_log : log b = log a; h_rep : rep b = rep a;
  h_ben : ben (gc b) = ben (gc a); h_pen : forall v, pen (gc b) v = pen (gc a) v + d v }.

Lemma adv_shifted H mops d a b i a' : shifted d a b -> adv H mops a i = Some a' -> exists b', adv H mops b i = Some b' /\ shifted d a' b'.
Proof.
  destruct a as [sa la ta ga oa ra], b as [sb lb tb gb ob rb]. intros [E1 E2 E3 E4 E5 E6 E7] E. cbn in E1, E2, E3, E4, E5, E6, E7. subst sb lb tb ob rb.
  unfold adv in *. cbn [th sh lk gc log rep] in *.
  destruct (ta i) as [|m1 x|m1|m1 rem|m1 e rem|m1 e rem fa|m1 rem su|m1 rem ops]; try discriminate E.
  - destruct (x <=? m_max m1); injection E as <-; eexists; (split; [reflexivity|]); split; auto.
  - injection E as <-; eexists; (split; [reflexivity|]); split; auto.
  - destruct rem as [|e rem]; [injection E as <-; eexists; (split; [reflexivity|]); split; auto|].
    destruct (la e); [discriminate E|]. injection E as <-; eexists; (split; [reflexivity|]); split; auto.
  - destruct (decrementPinCountOfBlock sa e (m_from m1)) as [[s' fa]|]; [|discriminate E]. injection E as <-; eexists; (split; [reflexivity|]); split; auto.
  - destruct (incrementPinCountOfBlock sa e (m_to m1)) as [[s' fa']|]; [|discriminate E]. injection E as <-; eexists; (split; [reflexivity|]); split; auto.
  - injection E as <-; eexists; (split; [reflexivity|]); split; auto.
  - destruct ops as [|op ops]; [injection E as <-; eexists; (split; [reflexivity|]); split; auto|].
    destruct op as [v w x|v x|v w x]; cbn [exec_mop] in *; injection E as <-; eexists; (split; [reflexivity|]); split; cbn; auto.
    + rewrite E6. reflexivity.
    + intros w. unfold upd. destruct (Nat.eqb_spec w v) as [->|]; [rewrite E7; lia|apply E7].
Qed.

Lemma crun_shifted H n mops d l : forall a b a', shifted d a b -> crun H n mops a l = Some a' -> exists b', crun H n mops b l = Some b' /\ shifted d a' b'.
Proof.
  unfold crun. induction l as [|x l IH]; intros a b a' S E; cbn [fold_opt] in *; [injection E as <-; eauto|].
  destruct (cstep H n mops a x) as [a1|] eqn:E1; [|discriminate E].
  assert (X : exists b1, cstep H n mops b x = Some b1 /\ shifted d a1 b1).
  { destruct x as [i m|i]; cbn [cstep] in *.
    - destruct S as [S1 S2 S3 S4 S5 S6 S7]. unfold is_free in *. rewrite S1, S3. destruct (th a i); try discriminate E1.
      destruct (_ && _) in E1 |- *; [|discriminate E1]. injection E1 as <-. eexists. split; [reflexivity|]. split; cbn; auto; try (rewrite ?S1, ?S3; reflexivity).
    - destruct (i <? n)%nat; [|discriminate E1]. eapply adv_shifted; eauto. }
  destruct X as (b1 & -> & S1). eapply IH; eauto.
Qed.

Section Policy.
Variables (G : gain_policy) (cu : hypergraph -> sync_update -> list mop) (pt bt : Z -> Z -> Z) (all : bool) (objf : hypergraph -> partition -> Z).
Hypothesis HD : delta_exact (gp_delta G) pt bt all.
Hypothesis HR : forall H s u, wf_hg H -> consistent H s -> complete H (part s) (pk s) -> In u (nodes H) -> gp_recompute G H s u = pen_of pt H (part s) u.
Hypothesis HIp : forall H s e b, wf_hg H -> consistent H s -> complete H (part s) (pk s) -> In e (edges H) -> (b < pk s)%nat -> gp_init_pen G H s b e = ew H e * pt (esize H e) (pin_count H (part s) e b).
Hypothesis HIb : forall H s e b, wf_hg H -> consistent H s -> complete H (part s) (pk s) -> In e (edges H) -> pins H e <> [] -> (b < pk s)%nat -> agg b (gp_init_ben G H s e) = ew H e * bt (esize H e) (pin_count H (part s) e b).
Hypothesis HO : forall H k P u from to, wf_hg H -> In u (nodes H) -> P u = Some from -> from <> to -> (to < k)%nat -> complete H P k ->
     ben_of bt H P u to - pen_of pt H P u = objf H P - objf H (move P u to).
Hypothesis HCC : forall H n s c l st, wf_hg H -> consistent H s -> complete H (part s) (pk s) -> cache_ok pt bt all H (pk s) (part s) c [] ->
     crun H n cu (cinit s c) l = Some st -> quiescent n st -> cache_ok pt bt all H (pk s) (part (sh st)) (gc st) (moved_nodes st).

Lemma conc_cache_dirty H n s c d l st : wf_hg H -> consistent H s -> complete H (part s) (pk s) -> cache_ok pt bt all H (pk s) (part s) c d ->
  crun H n cu (cinit s c) l = Some st -> quiescent n st -> cache_ok pt bt all H (pk s) (part (sh st)) (gc st) (d ++ moved_nodes st).
Proof.
  intros WF C HC [CB CP] E Q. set (c' := mkCache (pen_of pt H (part s)) (ben c)). set (f := fun v => pen_of pt H (part s) v - pen c v).
  destruct (crun_shifted H n cu f l (cinit s c) (cinit s c') st) as (st' & E' & S); [|exact E|].
  { split; cbn; auto. intros v. unfold f. lia. }
  assert (Q' : quiescent n st') by (intros i Hi; rewrite (h_th _ _ _ S); apply Q; exact Hi).
  assert (K : cache_ok pt bt all H (pk s) (part s) c' []) by (split; [exact CB|intros; reflexivity]).
  pose proof (HCC H n s c' l st' WF C HC K E' Q') as [B P]. unfold moved_nodes in P. rewrite (h_sh _ _ _ S) in *. rewrite (h_rep _ _ _ S) in P. fold (moved_nodes st) in P.
  split.
  - intros v b Hv Hb. rewrite <- (h_ben _ _ _ S). apply B; assumption.
  - intros v Hv Hd. assert (f v = 0) as F.
    { unfold f. rewrite CP; [lia|exact Hv|]. destruct Hd as [Hd|Hd]; [left; intros X; apply Hd; apply in_or_app; left; exact X|right; exact Hd]. }
    pose proof (h_pen _ _ _ S v) as X. rewrite F in X. rewrite P in X; [lia|exact Hv|]. destruct Hd as [Hd|Hd]; [left; intros Y; apply Hd; apply in_or_app; right; exact Y|right; exact Hd].
Qed.

(** Exactness of the whole cache. *)
Definition exactc (H : hypergraph) (k : nat) (P : partition) (c : cache) : Prop := cache_ok pt bt all H k P c [].
Lemma repaired_pen H s l : forall c v, pen (repaired G H s c l) v = (if mem v l then gp_recompute G H s v else pen c v) /\ ben (repaired G H s c l) = ben c.
Proof.
  unfold repaired. induction l as [|a l IH]; intros c v; [split; reflexivity|]. cbn [fold_left]. destruct (IH (recomputeInvalidTerms G H s c a) v) as [-> ->].
  split; [|reflexivity]. unfold mem. cbn [existsb]. unfold recomputeInvalidTerms, set_pen. cbn [pen]. unfold upd.
  destruct (existsb (Nat.eqb v) l); [rewrite orb_true_r; reflexivity|]. rewrite orb_false_r. destruct (Nat.eqb_spec v a) as [->|]; reflexivity.
Qed.
Lemma repair_exact H k s c d l : started H s -> pk s = k -> cache_ok pt bt all H k (part s) c d -> (forall v, In v (nodes H) -> In v d -> In v l) ->
  exactc H k (part s) (repaired G H s c l).
Proof.
  intros (WF & C & HC) K [B P] I. split.
  - intros v b Hv Hb. destruct (repaired_pen H s l c v) as [_ ->]. apply B; assumption.
  - intros v Hv _. destruct (repaired_pen H s l c v) as [-> _]. destruct (mem v l) eqn:M; [apply HR; assumption|].
    apply P; [exact Hv|]. left. intros X. apply I in X; [|exact Hv]. apply mem_In in X. congruence.
Qed.
Lemma conc_repair H k n s c l st marks : started H s -> pk s = k -> exactc H k (part s) c -> crun H n cu (cinit s c) l = Some st -> quiescent n st ->
  (forall v, In v (moved_nodes st) -> In v marks) ->
  started H (sh st) /\ pk (sh st) = k /\ exactc H k (part (sh st)) (repaired G H (sh st) (gc st) marks).
Proof.
  intros (WF & C & HC) K X E Q M. destruct (conc_quiescent H n cu WF s c l st C HC E Q) as (K' & C' & HC' & _).
  assert (S : started H (sh st)) by (split; [exact WF|split; [exact C'|rewrite K'; exact HC']]). split; [exact S|]. split; [congruence|].
  apply (repair_exact H k (sh st) (gc st) (moved_nodes st)); [exact S|congruence| |intros v _; apply M]. rewrite <- K. apply (HCC H n s c l st WF C HC); [rewrite K; exact X|exact E|exact Q].
Qed.

(** *** Label propagation: every node whose move succeeded has its flag set *)
Section Pool.
Variables (H : hypergraph) (k n : nat) (mops : hypergraph -> sync_update -> list mop) (g : sync_update -> Z).
Variables (skip : partition -> nat -> bool) (may : partition -> mv -> Z -> bool) (again : mv -> Z -> bool -> Z -> option mv)
  (fin : mv -> Z -> bool -> bool -> Z -> partition -> nact -> nact).
Hypotheses (WF : wf_hg H) (Wn : forall v, In v (nodes H) -> 0 <= nw H v) (Wt : total_weight H <= MAXW).
Variables (Lx : nat -> Z) (mok : mv -> Prop) (post : option nat -> nat -> Prop) (Q : nact -> Prop).
Variable act : list nat.
Hypothesis HM : forall P m x, may P m x = true -> P (m_u m) = Some (m_from m) -> In (m_u m) act -> m_from m <> m_to m /\ (m_to m < k)%nat /\ m_max m = Lx (m_to m) /\ mok m.
Hypothesis HA : forall m x b a m', again m x b a = Some m' -> mok m -> m' = mkMv (m_u m) (m_to m) (m_from m) (Lx (m_from m)) /\ (b = true \/ nolim Lx) /\ mok m'.
Hypothesis HS : forall P v, skip P v = true -> post (P v) v.
Hypothesis HP : forall m (b : bool), mok m -> (b = true \/ ~ nolim Lx) -> post (Some (if b then m_to m else m_from m)) (m_u m).
Hypothesis HQ : forall m x r b a P y, In (m_u m) (nodes H) -> Q y -> Q (fin m x r b a P y).
Variables (s0 : phg) (c0 : cache) (x0 : nact).
Hypotheses (CS : consistent H s0) (HC : complete H (part s0) (pk s0)) (Kk : pk s0 = k).
Hypotheses (An : incl act (nodes H)) (Nd : NoDup act) (Q0 : Q x0).
Local Notation PIx := (PI H k n mops Lx mok post Q act s0 c0).

Definition flagged (st : pst) : Prop := forall m, In (m, true) (rep (p_c st)) -> In (m_u m) (p_fl st) \/ exists i, (i < n)%nat /\ owner (p_pc st i) = Some (m_u m).
Lemma pstep_flagged st l st' : PIx st -> flagged st -> pstep H n mops g skip may again fin st l = Some st' -> flagged st'.
Proof.
  intros I F E. destruct l as [v|i m x|i|i]; cbn [pstep] in E.
  - destruct (_ && _) in E; [|discriminate E]. injection E as <-. exact F.
  - destruct (p_pc st i) eqn:Ep; try discriminate E. destruct (_ && _) in E; [|discriminate E]. injection E as <-. intros m' Hm. cbn [p_c p_fl p_pc] in *. destruct (F m' Hm) as [X|(j & Hj & O)]; [left; exact X|right].
    exists j. split; [exact Hj|]. unfold upd. destruct (Nat.eqb_spec j i) as [->|]; [rewrite Ep in O; discriminate O|exact O].
  - destruct (p_pc st i) as [|m x r|] eqn:Ep; try discriminate E. injection E as <-. intros m' Hm. cbn [p_c p_fl p_pc] in *. destruct (F m' Hm) as [X|(j & Hj & O)]; [left; exact X|right].
    exists j. split; [exact Hj|]. unfold upd. destruct (Nat.eqb_spec j i) as [->|]; [rewrite Ep in O; exact O|exact O].
  - destruct (p_pc st i) as [| |m x r] eqn:Ep; try discriminate E. destruct (adv H mops (p_c st) i) as [c'|] eqn:Ea; [|discriminate E].
    assert (Hi : (i < n)%nat) by (destruct (Nat.lt_ge_cases i n) as [X|X]; [exact X|]; rewrite (LPPoolThms.i_idle _ _ _ _ _ _ _ _ _ _ _ st I i) in Ep by lia; discriminate Ep).
    destruct (LPPoolThms.i_base _ _ _ _ _ _ _ _ _ _ _ st I) as [eff B]. pose proof (LPPoolThms.i_th _ _ _ _ _ _ _ _ _ _ _ st I i Hi) as T. rewrite Ep in T.
    destruct (LPPoolThms.adv_facts H n mops k (p_c st) eff i m c' B Hi T Ea) as (t & Et & _ & [(T1 & T2 & T3 & _)|(T1 & b & T2 & _)]).
    + assert (Z : idleb (th c' i) = false) by (rewrite Et, upd_same; destruct t; try reflexivity; congruence). rewrite Z in E. injection E as <-. intros m' Hm. cbn [p_c p_fl p_pc] in *. rewrite T2 in Hm. apply F. exact Hm.
    + assert (Z : idleb (th c' i) = true) by (rewrite Et, upd_same, T1; reflexivity). rewrite Z in E. cbv zeta in E.
      assert (F' : forall m', In (m', true) (rep c') -> m_u m' = m_u m \/ In (m_u m') (p_fl st) \/ exists j, (j < n)%nat /\ j <> i /\ owner (p_pc st j) = Some (m_u m')).
      { intros m' Hm. rewrite T2 in Hm. destruct Hm as [Hm|Hm]; [injection Hm as <- _; left; reflexivity|]. destruct (F m' Hm) as [X|(j & Hj & O)]; [right; left; exact X|].
        destruct (Nat.eq_dec j i) as [->|N]; [left; rewrite Ep in O; cbn in O; congruence|right; right; eauto]. }
      destruct (after_call again m x r _ _) as [m1|] eqn:Ac; injection E as <-; intros m' Hm; cbn [p_c p_fl p_pc] in *; destruct (F' m' Hm) as [X|[X|(j & Hj & N & O)]].
      * right. exists i. split; [exact Hi|]. rewrite upd_same. cbn [owner]. unfold after_call in Ac. destruct r; [discriminate Ac|]. destruct (HA _ _ _ _ _ Ac) as (-> & _).
        { apply (LPPoolThms.i_mok _ _ _ _ _ _ _ _ _ _ _ st I i m Hi). rewrite Ep. reflexivity. }
        cbn [m_u]. congruence.
      * left. exact X.
      * right. exists j. split; [exact Hj|]. rewrite upd_other by exact N. exact O.
      * left. rewrite X. apply in_or_app. right. left. reflexivity.
      * left. apply in_or_app. left. exact X.
      * right. exists j. split; [exact Hj|]. rewrite upd_other by exact N. exact O.
Qed.
Lemma prun_flagged l : forall st st', PIx st -> flagged st -> prun H n mops g skip may again fin st l = Some st' -> flagged st'.
Proof.
  unfold prun. induction l as [|a l IH]; intros st st' I F E; cbn [fold_opt] in E; [injection E as <-; exact F|].
  destruct (pstep H n mops g skip may again fin st a) as [st1|] eqn:E1; [|discriminate E]. eapply IH; [| |exact E].
  - eapply (pstep_PI H k n mops g skip may again fin); eauto.
  - eapply pstep_flagged; eauto.
Qed.
Lemma pool_flags l st : prun H n mops g skip may again fin (pinit s0 c0 act x0) l = Some st -> pdone n st -> incl (moved_nodes (p_c st)) (p_fl st).
Proof.
  intros E [_ D] v Hv. unfold moved_nodes in Hv. apply in_map_iff in Hv. destruct Hv as ((m & b) & <- & Hm). apply filter_In in Hm. destruct Hm as [Hm Hb]. cbn in Hb. subst b.
  assert (F : flagged st).
  { eapply prun_flagged; [| |exact E]; [apply (PI_init H k n mops Lx mok post Q act s0 c0 x0); auto|]. intros m' []. }
  destruct (F m Hm) as [X|(i & Hi & O)]; [exact X|]. rewrite (D i Hi) in O. discriminate O.
Qed.
End Pool.

(** *** Deterministic flows: every node whose move succeeded is marked *)
Section Det.
Variables (H : hypergraph) (k : nat) (o : objective).
Hypotheses (Wn : forall v, In v (nodes H) -> 0 <= nw H v) (Wt : total_weight H <= MAXW).

Definition wmok (wm0 : list nat) (st : dst) : Prop := incl wm0 (d_wm st) /\ forall m, In (m, true) (rep (d_c st)) -> In (m_u m) (d_wm st).
Lemma dstep_wm n T s c wm0 st dn eff l st' : (forall i, (i < n)%nat -> valid_task H k (part s) (T i)) -> DInv H k n o cu T s c st dn eff -> wmok wm0 st -> incl (d_wm st) (nodes H) ->
  dstep H o cu n st l = Some st' -> wmok wm0 st' /\ incl (d_wm st') (nodes H).
Proof.
  intros HT I [W1 W2] N E. destruct l as [i|i]; cbn [dstep] in E.
  - destruct (_ && _) in E; [|discriminate E]. destruct (d_todo st i) as [|[[u f] t] r]; [discriminate E|]. destruct (Nat.eqb f t); injection E as <-; (split; [split; [exact W1|exact W2]|exact N]).
  - destruct (Nat.ltb_spec i n) as [Hi|]; [|discriminate E]. destruct (adv H cu (d_c st) i) as [c'|] eqn:Ea; [|discriminate E].
    destruct (match th (d_c st) i with Incd _ _ su => _ | _ => _ end) as [imp' new']. injection E as <-. unfold wmok. cbn [d_wm d_c].
    assert (X : exists m, mv_of (th (d_c st) i) = Some m).
    { destruct (mv_of (th (d_c st) i)) as [m|] eqn:Em; [eauto|]. apply mv_idle in Em. unfold adv in Ea. rewrite Em in Ea. discriminate Ea. }
    destruct X as (m & Em).
    assert (Hu : In (m_u m) (nodes H)).
    { destruct (HT i Hi) as (_ & _ & _ & V). apply (V (m_u m) (m_from m) (m_to m)). eapply cur_in; eauto. }
    rewrite node_of_mv, Em. cbn [option_map].
    destruct (LPPoolThms.adv_facts H n cu k (d_c st) eff i m c' (DetFlowThms.i_base _ _ _ _ _ _ _ _ _ _ _ I) Hi Em Ea) as (t & Et & _ & [(T1 & T2 & _)|(T1 & b & T2 & _)]).
    + assert (Z : th c' i <> Idle) by (rewrite Et, upd_same; intros Z; rewrite Z in T1; discriminate T1). destruct (th c' i); [congruence|..]; (split; [split; [exact W1|rewrite T2; exact W2]|exact N]).
    + rewrite Et, upd_same, T1, T2. split; [split|].
      * intros v Hv. right. apply W1. exact Hv.
      * intros m' [Hm|Hm]; [injection Hm as <- _; left; reflexivity|right; apply W2; exact Hm].
      * intros v [<-|Hv]; [exact Hu|apply N; exact Hv].
Qed.
Lemma matching_repair s c wm ts s' c' wm' imps new d : ready H k s -> valid_matching H k (part s) ts -> incl wm (nodes H) -> incl d wm ->
  cache_ok pt bt all H k (part s) c d -> apply_matching H o cu s c wm ts s' c' wm' imps new ->
  ready H k s' /\ incl wm' (nodes H) /\ exists d', incl d' wm' /\ cache_ok pt bt all H k (part s') c' d'.
Proof.
  intros R VM N D X A. destruct (apply_matching_ok H k o cu Wn Wt s c wm ts s' c' wm' imps new R VM A) as (R' & _). split; [exact R'|].
  destruct A as (ls & st & Run & Dn & -> & -> & -> & _). destruct (matching_tasks H k _ _ VM) as [HT HDi].
  set (n := length ts) in *. set (T := fun i => nth i ts (mkT 0 1 [])) in *.
  assert (W : forall l st0, drun H o cu n (dinit s c wm T) l = Some st0 -> wmok wm st0 /\ incl (d_wm st0) (nodes H)).
  { induction l as [|a l IH] using rev_ind; intros st0 E0.
    - injection E0 as <-. split; [split; [intros v Hv; exact Hv|intros m []]|exact N].
    - unfold drun in E0. rewrite fold_opt_app in E0. destruct (fold_opt (dstep H o cu n) (dinit s c wm T) l) as [st1|] eqn:E1; [|discriminate E0].
      cbn [fold_opt] in E0. destruct (dstep H o cu n st1 a) as [st2|] eqn:E2; [|discriminate E0]. injection E0 as <-. destruct (IH st1 E1) as [I1 I2].
      destruct (drun_inv H k o cu Wn Wt n T s c wm R HT HDi l st1 E1) as (dn & eff & DI). exact (dstep_wm n T s c wm st1 dn eff a st2 HT DI I1 I2 E2). }
  destruct (W ls st Run) as [[W1 W2] W3]. split; [exact W3|].
  destruct (drun_inv H k o cu Wn Wt n T s c wm R HT HDi ls st Run) as (dn & eff & DI). destruct (DetFlowThms.i_run _ _ _ _ _ _ _ _ _ _ _ DI) as (cl & CR).
  assert (Q : quiescent n (d_c st)) by (intros i Hi; apply Dn; exact Hi). destruct R as [(WF & C & HC) K].
  exists (d ++ moved_nodes (d_c st)). split.
  - intros v Hv. apply in_app_or in Hv. destruct Hv as [Hv|Hv]; [apply W1, D; exact Hv|]. unfold moved_nodes in Hv. apply in_map_iff in Hv. destruct Hv as ((m & b) & <- & Hm).
    apply filter_In in Hm. destruct Hm as [Hm Hb]. cbn in Hb. subst b. apply W2. exact Hm.
  - rewrite <- K. apply (conc_cache_dirty H n s c d cl (d_c st) WF C HC); [rewrite K; exact X|exact CR|exact Q].
Qed.
Lemma det_flow_exact next s c wm h s' c' wm' : det_flow_c H k cu o next s c wm h s' c' wm' -> forall d, ready H k s -> incl wm (nodes H) -> incl d wm ->
  cache_ok pt bt all H k (part s) c d -> ready H k s' /\ exists d', incl d' wm' /\ cache_ok pt bt all H k (part s') c' d'.
Proof.
  induction 1 as [s c wm h Nx|s c wm h ts s1 c1 wm1 imps new s2 c2 wm2 Nx VM A _ IH]; intros d R N D X; [split; [exact R|eauto]|].
  destruct (matching_repair s c wm ts s1 c1 wm1 imps new d R VM N D X A) as (R1 & N1 & d1 & D1 & X1). exact (IH d1 R1 N1 D1 X1).
Qed.
End Det.

(** *** All refiners *)
Section All.
Variables (H : hypergraph) (k : nat) (o : objective).
Hypotheses (Wn : forall v, In v (nodes H) -> 0 <= nw H v) (Wt : total_weight H <= MAXW).
Definition fine (x : phg * cache) : Prop := ready H k (fst x) /\ exactc H k (part (fst x)) (snd x).
Lemma conc_fine n s c l st marks : fine (s, c) -> crun H n cu (cinit s c) l = Some st -> quiescent n st -> incl (moved_nodes st) marks ->
  fine (sh st, repaired G H (sh st) (gc st) marks).
Proof.
  intros [[S K] X] E Q M. destruct (conc_repair H k n s c l st marks S K X E Q M) as (S' & K' & X'). split; [split; [exact S'|exact K']|exact X'].
Qed.
Lemma lp_phase_fine L fixed mu rebal thr u act s c x s' c' : fine (s, c) -> incl act (nodes H) -> NoDup act -> lp_phase_c H k G cu o L fixed mu rebal thr u act s c x s' c' -> fine (s', c').
Proof.
  intros Fi An Nd (n & ls & st & mvd & E & Dn & Pm & -> & ->). pose proof Fi as [[(WF & C & HC) K] X]. cbn [fst snd] in *.
  assert (HM : forall P m y, pmay k L fixed rebal u P m y = true -> P (m_u m) = Some (m_from m) -> In (m_u m) act -> m_from m <> m_to m /\ (m_to m < k)%nat /\ m_max m = cap L u (m_to m) /\ mokp fixed u m).
  { intros P m y Hm Pm' Hv. unfold pmay in Hm. repeat (apply andb_true_iff in Hm; destruct Hm as [Hm ?]). apply negb_true_iff in Hm. unfold mokp. repeat match goal with Y : negb _ = true |- _ => apply negb_true_iff in Y end.
    split; [apply Nat.eqb_neq; assumption|]. split; [apply Nat.ltb_lt; assumption|]. split; [lia|exact Hm]. }
  assert (HA : forall m y b a m', pagain L u m y b a = Some m' -> mokp fixed u m -> m' = mkMv (m_u m) (m_to m) (m_from m) (cap L u (m_from m)) /\ (b = true \/ nolim (cap L u)) /\ mokp fixed u m').
  { intros m y b a m' Hm Mm. unfold pagain in Hm. destruct ((u || b) && negb (LPPar.accepted y a)) eqn:Gd; [|discriminate]. injection Hm as <-. split; [reflexivity|]. split; [|exact Mm]. apply andb_true_iff in Gd. destruct Gd as [Gd _]. apply orb_true_iff in Gd. destruct Gd as [->|Gd]; [right; intros q; reflexivity|left; exact Gd]. }
  pose proof (pool_flags H k n cu (gain_of o) (fun _ _ => true) (pmay k L fixed rebal u) (pagain L u) (pfin H mu thr u) WF Wn Wt (cap L u) (mokp fixed u) (fun _ _ => True) (fun _ => True) act HM HA
    (fun _ _ _ => Logic.I) (fun _ _ _ _ => Logic.I) (fun _ _ _ _ _ _ _ _ _ => Logic.I) s c x C HC K An Nd Logic.I ls st E Dn) as Fl.
  destruct (pool_done H k n cu (gain_of o) (fun _ _ => true) (pmay k L fixed rebal u) (pagain L u) (pfin H mu thr u) WF Wn Wt (cap L u) (mokp fixed u) (fun _ _ => True) (fun _ => True) act HM HA
    (fun _ _ _ => Logic.I) (fun _ _ _ _ => Logic.I) (fun _ _ _ _ _ _ _ _ _ => Logic.I) s c x C HC K An Nd Logic.I ls st E Dn) as (_ & _ & _ & _ & _ & _ & _ & _ & _ & li & CR & _ & Q).
  apply (conc_fine n s c li (p_c st) mvd Fi CR Q). intros v Hv. apply Fl in Hv. eapply Permutation_in; [symmetry; exact Pm|exact Hv].
Qed.
Lemma lp_rollback_fine l od s c s' c' : fine (s, c) -> incl l (nodes H) -> NoDup l -> (forall v, In v l -> exists b, od v = Some b /\ (b < k)%nat) -> lp_rollback_c H G cu o l od s c s' c' -> fine (s', c').
Proof.
  intros Fi An Nd Vo (n & ls & st & l' & E & Dn & Pm & -> & ->). pose proof Fi as [[(WF & C & HC) K] X]. cbn [fst snd] in *.
  set (mok := fun m : mv => od (m_u m) = Some (m_to m)). set (post := fun (p : option nat) v => In v l -> p = od v).
  assert (HM : forall P m y, rmay od P m y = true -> P (m_u m) = Some (m_from m) -> In (m_u m) l -> m_from m <> m_to m /\ (m_to m < k)%nat /\ m_max m = MAXW /\ mok m).
  { intros P m y Hm Pm' Hv. unfold rmay in Hm. apply andb_true_iff in Hm. destruct Hm as [Hm M3]. apply andb_true_iff in Hm. destruct Hm as [M1 M2]. apply opt_eqb_eq in M1. apply negb_true_iff, Nat.eqb_neq in M2.
    split; [exact M2|]. split; [|split; [lia|unfold mok; congruence]]. destruct (Vo _ Hv) as (b & Eb & Lb). congruence. }
  assert (HA : forall (m : mv) (y : Z) (b : bool) (a : Z) (m' : mv), (fun (_ : mv) (_ : Z) (_ : bool) (_ : Z) => @None mv) m y b a = Some m' -> mok m -> m' = mkMv (m_u m) (m_to m) (m_from m) ((fun _ => MAXW) (m_from m)) /\ (b = true \/ nolim (fun _ => MAXW)) /\ mok m').
  { intros m y b a m' Y. discriminate Y. }
  assert (HS : forall P v, rskip od P v = true -> post (P v) v) by (intros P v Hs _; apply opt_eqb_eq; exact Hs).
  assert (HP : forall m (b : bool), mok m -> (b = true \/ ~ nolim (fun _ => MAXW)) -> post (Some (if b then m_to m else m_from m)) (m_u m)).
  { intros m b Mm NL _. destruct b; [unfold mok in Mm; congruence|]. exfalso. destruct NL as [Y|Y]; [discriminate Y|]. apply Y. intros q. reflexivity. }
  pose proof (pool_flags H k n cu (gain_of o) (rskip od) (rmay od) (fun _ _ _ _ => None) (fun _ _ _ _ _ _ y => y) WF Wn Wt (fun _ => MAXW) mok post (fun _ => True) l HM HA HS HP
    (fun _ _ _ _ _ _ _ _ _ => Logic.I) s c (fresh od (fun _ => false)) C HC K An Nd Logic.I ls st E Dn) as Fl.
  destruct (pool_done H k n cu (gain_of o) (rskip od) (rmay od) (fun _ _ _ _ => None) (fun _ _ _ _ _ _ y => y) WF Wn Wt (fun _ => MAXW) mok post (fun _ => True) l HM HA HS HP
    (fun _ _ _ _ _ _ _ _ _ => Logic.I) s c (fresh od (fun _ => false)) C HC K An Nd Logic.I ls st E Dn) as (_ & _ & _ & _ & A5 & _ & _ & _ & _ & li & CR & _ & Q).
  apply (conc_fine n s c li (p_c st) l' Fi CR Q). intros v Hv. apply Fl, A5 in Hv. eapply Permutation_in; [symmetry; exact Pm|exact Hv].
Qed.
Lemma rebalancer_fine n L fixed s c st : fine (s, c) -> reb_reach H n cu L s c fixed st -> joined n st -> fine (sh (rc st), recomputed H G st).
Proof.
  intros Fi (found & l & E) J. pose proof Fi as [[(WF & C & HC) K] X]. cbn [fst snd] in *.
  pose proof (init_inv H (pk s) n cu L s c fixed found WF C HC eq_refl Wn) as R0.
  pose proof (run_inv H (pk s) n cu L s c fixed found WF C HC eq_refl Wn l _ st R0 E) as R.
  destruct (run_proj H (pk s) n cu L s c fixed found WF C HC eq_refl Wn l _ st R0 E) as (cl & Ec & _). cbn [rinit rc] in Ec.
  pose proof (end_quiescent H (pk s) n cu L s c fixed found WF C HC eq_refl Wn st R J) as Q.
  apply (conc_fine n s c cl (rc st) (map m_u (moves_linear st)) Fi Ec Q). intros v Hv.
  assert (P : Permutation (map m_u (moves_linear st)) (moved_nodes (rc st))).
  { unfold moved_nodes. rewrite (end_linear H (pk s) n cu L s c fixed found WF C HC eq_refl Wn st R J), (end_acc H (pk s) n cu L s c fixed found WF C HC eq_refl Wn st R J).
    unfold Rebalance.accepted. rewrite map_map. reflexivity. }
  eapply Permutation_in; [symmetry; exact P|exact Hv].
Qed.
Theorem refiner_fine x y : refiner H k G cu o x y -> fine x -> fine y.
Proof.
  intros Rf Fi. destruct Rf as [s c ops s' c' Fo Ru|L fixed mu rebal thr u act s c x s' c' An Nd A|l od s c s' c' An Nd Vo A|n L fixed s c st A J|n s c l st marks E Q M|next wm order h s c s' c' wm' Nw Po A].
  - destruct Fi as [[(WF & C & HC) K] X]. cbn [fst snd] in *.
    destruct (gc_run_inv G pt bt all HD HR H k ops (s, c, []) (s', c', []) WF (conj C (conj HC (conj K X))) Fo Ru) as (C' & HC' & K' & X').
    split; [split; [split; [exact WF|split; [exact C'|exact HC']]|exact K']|exact X'].
  - eapply lp_phase_fine; eauto.
  - eapply lp_rollback_fine; eauto.
  - eapply rebalancer_fine; eauto.
  - eapply conc_fine; eauto.
  - destruct Fi as [R X]. cbn [fst snd] in *. destruct (det_flow_exact H k o Wn Wt next s c wm h s' c' wm' A [] R Nw ltac:(intros v []) X) as (R' & d & D & X').
    pose proof R' as [S' K']. split; [exact R'|]. unfold det_flow_repair. apply (repair_exact H k s' c' d); [exact S'|exact K'|exact X'|].
    intros v Hv Hd. apply filter_In. split; [eapply Permutation_in; [symmetry; exact Po|exact Hv]|]. apply mem_In, D, Hd.
Qed.
Theorem refiners_fine x y : refiners H k G cu o x y -> fine x -> fine y.
Proof. induction 1 as [|x y z A _ IH]; intros Fi; [exact Fi|]. apply IH. eapply refiner_fine; eauto. Qed.
End All.
Theorem refiners_exact H s0 ops s c o s' c' : (forall v, In v (nodes H) -> 0 <= nw H v) -> total_weight H <= MAXW -> started H s0 ->
  session G H s0 ops (s, c, []) -> refiners H (pk s0) G cu o (s, c) (s', c') ->
  started H s' /\ pk s' = pk s0 /\
  forall u from to, In u (nodes H) -> part s' u = Some from -> from <> to -> (to < pk s0)%nat ->
    cache_gain c' u to = objf H (part s') - objf H (move (part s') u to).
Proof.
  intros Wn Wt (WF & C & HC) (sched & c0 & Hs & Hf & Hr) Rf.
  destruct (session_ok G pt bt all HD HR HIp HIb H s0 sched c0 ops _ WF C HC Hs Hf Hr) as (C1 & HC1 & K1 & X1).
  destruct (refiners_fine H (pk s0) o Wn Wt _ _ Rf) as [[S K] [CB CP]].
  { split; [split; [split; [exact WF|split; [exact C1|exact HC1]]|exact K1]|exact X1]. }
  cbn [fst snd] in *. split; [exact S|]. split; [exact K|]. intros u from to Hu Hp Hft Ht. unfold cache_gain. rewrite (CB u to Hu Ht), (CP u Hu (or_introl (fun x => x))).
  destruct S as (_ & _ & HC'). rewrite K in HC'. eapply HO; eauto.
Qed.
End Policy.

(** C85 *)
Theorem C85_cache_survives_refinement : forall H s0 ops s c o s' c' G cu obj,
  In (G, cu, obj) [(km1_policy, km1_mops, km1); (cut_policy, cut_mops, cut); (soed_policy, soed_mops, soed)] ->
  (forall v, In v (nodes H) -> 0 <= nw H v) -> total_weight H <= MAXW -> started H s0 ->
  session G H s0 ops (s, c, []) -> refiners H (pk s0) G cu o (s, c) (s', c') ->
  started H s' /\ pk s' = pk s0 /\
  forall u from to, In u (nodes H) -> part s' u = Some from -> from <> to -> (to < pk s0)%nat ->
    cache_gain c' u to = obj H (part s') - obj H (move (part s') u to).
Proof.
  intros H s0 ops s c o s' c' G cu obj Hin Wn Wt. destruct Hin as [X|[X|[X|[]]]]; injection X as <- <- <-.
  - apply (refiners_exact km1_policy km1_mops km1_pt km1_bt false km1 km1_delta_exact km1_HR km1_HIp km1_HIb km1_gain_objective); [|exact Wn|exact Wt].
    intros H0 n s1 c1 l st WF C HC CO E Q. refine (conc_cache H0 n km1_mops WF km1_pt km1_bt false (km1_Hben H0) (km1_Hpen H0) (km1_Hpen0 H0) _ s1 c1 l st C HC CO E Q). discriminate.
  - apply (refiners_exact cut_policy cut_mops cut_pt cut_bt true cut cut_delta_exact cut_HR cut_HIp cut_HIb cut_gain_objective); [|exact Wn|exact Wt].
    intros H0 n s1 c1 l st WF C HC CO E Q. exact (conc_cache H0 n cut_mops WF cut_pt cut_bt true (cut_Hben H0) (cut_Hpen H0) (cut_Hpen0 H0) (fun _ => cut_Hall H0) s1 c1 l st C HC CO E Q).
  - apply (refiners_exact soed_policy soed_mops soed_pt soed_bt false soed soed_delta_exact soed_HR soed_HIp soed_HIb soed_gain_objective); [|exact Wn|exact Wt].
    intros H0 n s1 c1 l st WF C HC CO E Q. refine (conc_cache H0 n soed_mops WF soed_pt soed_bt false (soed_Hben H0) (soed_Hpen H0) (soed_Hpen0 H0) _ s1 c1 l st C HC CO E Q). discriminate.
Qed.

(** Example: deterministic flow refinement of the hypergraph of DetFlowProps.v: two pairs of blocks, four nodes moved in parallel.  Their penalty
    terms are out of date before the repair; afterwards every gain is exact, e.g. moving node 1 from block 0 back to block 1 costs 1. *)
From Verif Require Import WfCheck ConcProgress.
Lemma km1_ext H P Q : wf_hg H -> (forall v, In v (nodes H) -> P v = Q v) -> km1 H P = km1 H Q.
Proof. intros WF E. apply sumZ_ext. intros e He. apply km1_edge_ext. intros v Hv. apply E. exact (wf_pins_nodes _ WF e v He Hv). Qed.
Definition x_next (P : partition) (h : list report) : option (list task) := match h with [] => Some xT | _ => None end.
Theorem C85_example : started xH xS /\ (forall v, In v (nodes xH) -> 0 <= nw xH v) /\ total_weight xH <= MAXW /\
  exists c, session km1_policy xH xS [] (xS, c, []) /\
  exists s' c', refiners xH 4 km1_policy km1_mops Okm1 (xS, c) (s', c') /\
    map (part s') (seq 0 8) = [Some 0; Some 0; Some 1; Some 1; Some 2; Some 2; Some 3; Some 3]%nat /\
    cache_gain c 1 0 = 3 /\ cache_gain c' 1 1 = -1 /\ km1 xH (part s') = 3.
Proof.
  assert (R : ready xH 4 xS) by (split; [exact x_started|reflexivity]).
  assert (Wn : forall v, In v (nodes xH) -> 0 <= nw xH v) by (intros; cbn; lia). assert (Wt : total_weight xH <= MAXW) by (vm_compute; discriminate).
  split; [exact x_started|]. split; [exact Wn|]. split; [exact Wt|].
  set (c := initializeGainCache km1_policy xH xS (fun u => [inc xH u]) (mkCache (fun _ => 0) (fun _ _ => 0))).
  assert (Se : session km1_policy xH xS [] (xS, c, [])).
  { exists (fun u => [inc xH u]), (mkCache (fun _ => 0) (fun _ _ => 0)). split; [intros u _; cbn [concat]; rewrite app_nil_r; reflexivity|]. split; [constructor|reflexivity]. }
  exists c. split; [exact Se|].
  destruct (C76_completes xH 4 Okm1 km1_mops Wn Wt (km1_Hcost xH) xS c [] xT [] _ R x_valid eq_refl) as [_ (ls & st & Run & Dn)].
  assert (A : apply_matching xH Okm1 km1_mops xS c [] xT (sh (d_c st)) (gc (d_c st)) (d_wm st) (map (d_imp st) (seq 0 (length xT))) (d_new st)) by (exists ls, st; auto 10).
  destruct (C76_matching xH 4 Okm1 km1_mops Wn Wt _ _ _ _ _ _ _ _ _ R x_valid A) as (_ & A2 & A3 & _).
  assert (Rf : refiners xH 4 km1_policy km1_mops Okm1 (xS, c) (sh (d_c st), det_flow_repair xH km1_policy (sh (d_c st)) (gc (d_c st)) (d_wm st) (seq 0 8))).
  { apply rf_step with (y := (sh (d_c st), det_flow_repair xH km1_policy (sh (d_c st)) (gc (d_c st)) (d_wm st) (seq 0 8))); [|apply rf_none].
    apply (by_deterministic_flows xH 4 km1_policy km1_mops Okm1 x_next [] (seq 0 8) [] xS c); [intros v []|reflexivity|].
    eapply dc_match; [reflexivity|exact x_valid|exact A|]. apply dc_stop. reflexivity. }
  exists (sh (d_c st)), (det_flow_repair xH km1_policy (sh (d_c st)) (gc (d_c st)) (d_wm st) (seq 0 8)). split; [exact Rf|].
  assert (N : forall v, mem v [1;2;5;6]%nat = false -> part (sh (d_c st)) v = part xS v).
  { intros v Nv. apply A3. intros t u f b It Iu ->. cbn in It. destruct It as [<-|[<-|[]]]; cbn in Iu; repeat (destruct Iu as [Iu|Iu]; [injection Iu as <- <- <-; discriminate Nv|]); destruct Iu. }
  assert (Ps : map (part (sh (d_c st))) (seq 0 8) = [Some 0; Some 0; Some 1; Some 1; Some 2; Some 2; Some 3; Some 3]%nat).
  { cbn [seq map]. rewrite (N 0%nat), (N 3%nat), (N 4%nat), (N 7%nat) by reflexivity.
    rewrite (A2 (mkT 0 1 [(1, 1, 0); (2, 0, 1)])%nat 1%nat 1%nat 0%nat), (A2 (mkT 0 1 [(1, 1, 0); (2, 0, 1)])%nat 2%nat 0%nat 1%nat), (A2 (mkT 2 3 [(5, 3, 2); (6, 2, 3)])%nat 5%nat 3%nat 2%nat), (A2 (mkT 2 3 [(5, 3, 2); (6, 2, 3)])%nat 6%nat 2%nat 3%nat) by (cbn; auto).
    reflexivity. }
  split; [exact Ps|]. split; [vm_compute; reflexivity|].
  set (Q := fun v => nth v [Some 0; Some 0; Some 1; Some 1; Some 2; Some 2; Some 3; Some 3]%nat None : option nat).
  assert (EQ : forall v, In v (nodes xH) -> part (sh (d_c st)) v = Q v).
  { intros v Hv. cbn in Hv. assert (G : forall i, (i < 8)%nat -> part (sh (d_c st)) i = Q i).
    { intros i Hi. replace (part (sh (d_c st)) i) with (nth i (map (part (sh (d_c st))) (seq 0 8)) None); [rewrite Ps; reflexivity|].
      rewrite (nth_indep _ None (part (sh (d_c st)) 0%nat)) by (rewrite map_length, seq_length; exact Hi). rewrite map_nth, seq_nth by exact Hi. reflexivity. }
    apply G. lia. }
  destruct (C85_cache_survives_refinement xH xS [] xS c Okm1 _ _ km1_policy km1_mops km1 (or_introl eq_refl) Wn Wt x_started Se Rf) as (S' & K' & Ex).
  assert (WF : wf_hg xH) by apply x_started.
  assert (O1 : km1 xH (part (sh (d_c st))) = 3) by (rewrite (km1_ext xH _ Q WF EQ); vm_compute; reflexivity).
  split; [|exact O1].
  rewrite (Ex 1%nat 0%nat 1%nat); [|cbn; tauto|rewrite EQ by (cbn; tauto); reflexivity|discriminate|cbn; lia]. rewrite O1.
  rewrite (km1_ext xH (move (part (sh (d_c st))) 1 1) (move Q 1 1) WF); [vm_compute; reflexivity|].
  intros v Hv. unfold move, upd. destruct (Nat.eqb v 1); [reflexivity|apply EQ; exact Hv].
Qed.
