(** RebalanceThms.v - C61: what a call of the parallel rebalancer guarantees, for every schedule of any number of tasks and
    every decision of the priority queues and gain computations (Rebalance.v). *)
From Verif Require Import Base Spec SpecLemmas WfCheck PHG PHGProofs Objective GainCache GainCacheProofs Conc ConcProofs ConcMore ConcRun PropsA Rollback Interleave Rebalance.

(** State [st] is reached by some execution of the rebalancer on partition [s] with block weight limits [L]. *)
Definition reb_reach (H : hypergraph) (n : nat) (cache_updates : hypergraph -> sync_update -> list mop) (L : nat -> Z) (s : phg) (c : cache)
  (fixed : nat -> bool) (st : rst) : Prop :=
  exists found l, rrun H (pk s) n cache_updates L (rinit H L s c fixed found) l = Some st.

Theorem C61_rebalancer : forall H n cu L s c fixed st, started H s -> (forall v, In v (nodes H) -> 0 <= nw H v) ->
  reb_reach H n cu L s c fixed st -> joined n st ->
  let s' := sh (rc st) in
  (* the partition data structure is consistent again *)
  started H s' /\ pk s' = pk s /\
  (* only non-fixed nodes of blocks that were overloaded have been moved *)
  (forall v, part s' v <> part s v -> In v (nodes H) /\ fixed v = false /\
     exists b, part s v = Some b /\ (b < pk s)%nat /\ L b < block_weight H (part s) b) /\
  (* no block becomes overloaded and no overloaded block becomes heavier *)
  (forall b, (b < pk s)%nat -> block_weight H (part s') b <= Z.max (L b) (block_weight H (part s) b)) /\
  (* the returned value tells whether the partition is balanced, and it is when the tasks stopped for lack of overloaded blocks *)
  (returned (pk s) L st = true <-> balanced H (part s') (pk s) L) /\
  (nov st = 0 -> balanced H (part s') (pk s) L) /\
  (* the reported change of the objective is exact *)
  gain_sum km1_gain_of st = km1 H (part s') - km1 H (part s) /\
  gain_sum cut_gain_of st = cut H (part s') - cut H (part s) /\
  gain_sum soed_gain_of st = soed H (part s') - soed H (part s).
Proof.
  intros H n cu L s c fixed st (WF & C & HC) Hw (found & l & E) J s'.
  pose proof (init_inv H (pk s) n cu L s c fixed found WF C HC eq_refl Hw) as R0.
  pose proof (run_inv H (pk s) n cu L s c fixed found WF C HC eq_refl Hw l _ st R0 E) as R.
  destruct (run_proj H (pk s) n cu L s c fixed found WF C HC eq_refl Hw l _ st R0 E) as (cl & Ec & Fl). cbn [rinit rc] in Ec.
  pose proof (end_quiescent H (pk s) n cu L s c fixed found WF C HC eq_refl Hw st R J) as Q.
  destruct (conc_quiescent H n cu WF s c cl (rc st) C HC Ec Q) as (Ek & C' & HC' & Ep).
  destruct (end_part H (pk s) n cu L s c fixed found WF C HC eq_refl Hw st R J Ep) as [P1 P2].
  assert (Wt : forall b, (b < pk s)%nat -> wt s' b = block_weight H (part s') b) by (intros b Hb; apply (c_wt H _ C'); unfold s'; rewrite Ek; exact Hb).
  split; [split; [exact WF|]; split; [exact C'|]; unfold s'; rewrite Ek; exact HC'|]. split; [exact Ek|]. split.
  { intros v Ne. destruct (in_dec Nat.eq_dec v (map m_u (moves_linear st))) as [I|I]; [|exfalso; apply Ne, P2, I].
    apply in_map_iff in I. destruct I as (m & <- & I). destruct (end_good H (pk s) n cu L s c fixed found WF C HC eq_refl Hw st R J m I) as (_ & _ & _ & _ & G). exact G. }
  split; [exact (conc_balance H n cu WF s c cl (rc st) L C HC Hw Fl Ec)|].
  split.
  { unfold returned. rewrite forallb_forall. split.
    - intros A b Hb. rewrite <- (Wt b Hb). apply Z.leb_le, A, in_seq. lia.
    - intros A b Hb. apply in_seq in Hb. apply Z.leb_le. fold s'. rewrite Wt by lia. apply A. lia. }
  split; [intros Z0; exact (proj2 (end_nov H (pk s) n cu L s c fixed found WF C HC eq_refl Hw st R J) Z0)|].
  pose proof (C06_attributed_gains_sum H s n cu c cl (rc st) (conj WF (conj C HC)) Ec Q) as G. exact G.
Qed.

(** The moves handed to the caller: each moved node exactly once, with its old and new block; exactly what the interleaving of
    unconstrained FM expects (reb_ok, C60). *)
Theorem C61_reported_moves : forall H n cu L s c fixed st, started H s -> (forall v, In v (nodes H) -> 0 <= nw H v) ->
  reb_reach H n cu L s c fixed st -> joined n st ->
  NoDup (map m_u (moves_linear st)) /\
  (forall m, In m (moves_linear st) -> part s (m_u m) = Some (m_from m) /\ part (sh (rc st)) (m_u m) = Some (m_to m) /\ m_from m <> m_to m) /\
  (forall v, ~ In v (map m_u (moves_linear st)) -> part (sh (rc st)) v = part s v) /\
  length (moves_linear st) = gid st /\
  reb_ok H (pk s) (part s) (moves_by_part st) /\
  (forall v, rebalanced (pk s) (part s) (moves_by_part st) v = part (sh (rc st)) v).
Proof.
  intros H n cu L s c fixed st (WF & C & HC) Hw (found & l & E) J.
  pose proof (init_inv H (pk s) n cu L s c fixed found WF C HC eq_refl Hw) as R0.
  pose proof (run_inv H (pk s) n cu L s c fixed found WF C HC eq_refl Hw l _ st R0 E) as R.
  destruct (run_proj H (pk s) n cu L s c fixed found WF C HC eq_refl Hw l _ st R0 E) as (cl & Ec & Fl). cbn [rinit rc] in Ec.
  pose proof (end_quiescent H (pk s) n cu L s c fixed found WF C HC eq_refl Hw st R J) as Q.
  destruct (conc_quiescent H n cu WF s c cl (rc st) C HC Ec Q) as (Ek & C' & HC' & Ep).
  destruct (end_part H (pk s) n cu L s c fixed found WF C HC eq_refl Hw st R J Ep) as [P1 P2].
  split; [exact (end_nodup H (pk s) n cu L s c fixed found WF C HC eq_refl Hw st R J)|]. split.
  { intros m I. destruct (end_good H (pk s) n cu L s c fixed found WF C HC eq_refl Hw st R J m I) as (G1 & G2 & _). split; [exact G1|]. split; [exact (P1 m I)|exact G2]. }
  split; [exact P2|]. split.
  { rewrite (Permutation_length (end_linear H (pk s) n cu L s c fixed found WF C HC eq_refl Hw st R J)), map_length, <- (map_length fst), (Permutation_length (end_ids H (pk s) n cu L s c fixed found WF C HC eq_refl Hw st R J)).
    apply seq_length. }
  split; [exact (end_reb_ok H (pk s) n cu L s c fixed found WF C HC eq_refl Hw st R J)|exact (end_rebalanced H (pk s) n cu L s c fixed found WF C HC eq_refl Hw st R J Ep)].
Qed.

(** During the call: changeNodePart is only called within its contract (the node is in block [from], nobody else is moving it,
    the target is another block), and the index into the move array is within its bounds. *)
Theorem C61_calls_legal : forall H n cu L s c fixed st, started H s -> (forall v, In v (nodes H) -> 0 <= nw H v) ->
  reb_reach H n cu L s c fixed st ->
  (forall i m, (i < n)%nat -> pcs st i = RCall m ->
     part (sh (rc st)) (m_u m) = Some (m_from m) /\ m_from m <> m_to m /\ (m_to m < pk s)%nat /\ fixed (m_u m) = false /\
     (forall j, (j < n)%nat -> node_of (th (rc st) j) <> Some (m_u m)) /\
     exists st', rstep H (pk s) n cu L st (i, AGo) = Some st') /\
  (forall i m id locked, (i < n)%nat -> pcs st i = RUpd m id locked -> (id < gid st <= length (nodes H))%nat).
Proof.
  intros H n cu L s c fixed st (WF & C & HC) Hw (found & l & E).
  pose proof (init_inv H (pk s) n cu L s c fixed found WF C HC eq_refl Hw) as R0.
  pose proof (run_inv H (pk s) n cu L s c fixed found WF C HC eq_refl Hw l _ st R0 E) as R.
  split.
  - intros i m Hi Ep. destruct (call_enabled H (pk s) n cu L s c fixed found WF C HC eq_refl Hw st i m R Hi Ep) as [c' Ec].
    assert (G : good_mv H (pk s) L s fixed m) by (apply (r_good _ _ _ _ _ _ st R i m Hi); rewrite Ep; left; reflexivity).
    destruct G as (G1 & G2 & G3 & _ & _ & G5 & _).
    split; [rewrite <- G1; apply (r_cur _ _ _ _ _ _ st R i m Hi); left; exact Ep|]. split; [exact G2|]. split; [exact G3|]. split; [exact G5|]. split.
    + assert (F : is_free n (rc st) (m_u m) = true).
      { apply (free_own H (pk s) n cu L s c fixed found WF C HC eq_refl Hw st i); auto; [apply (no_moving H (pk s) n cu L s c fixed found WF C HC eq_refl Hw st i R Hi); rewrite Ep; exact I|rewrite Ep; left; reflexivity]. }
      intros j Hj X. rewrite node_of_mv in X. destruct (mv_of (th (rc st) j)) as [m'|] eqn:Em; [|discriminate X].
      injection X as X. eapply free_spec; eauto.
    + unfold rstep. destruct (Nat.ltb_spec i n); [|lia]. rewrite Ep, Ec. eexists. reflexivity.
  - intros i m id lo Hi Ep.
    pose proof (r_ids _ _ _ _ _ _ st R) as P. split.
    + assert (X : In id (seq 0 (gid st))).
      { eapply Permutation_in; [exact P|]. apply in_or_app. right. apply in_flat_own. exists i. split; [exact Hi|]. rewrite Ep. left. reflexivity. }
      apply in_seq in X. lia.
    + rewrite <- (seq_length (gid st) 0), <- (Permutation_length P), app_length, map_length.
      set (o := map (fun x => m_u (snd x)) (mvs st) ++ flat_map (fun j => own (pcs st j)) (seq 0 n)).
      assert (Len : (length (mvs st) + length (flat_map (fun j => idl (pcs st j)) (seq 0 n)) <= length o)%nat).
      { unfold o. rewrite app_length, map_length. apply Nat.add_le_mono_l. clear P o.
        induction (seq 0 n) as [|j q IH]; [reflexivity|]. cbn [flat_map]. rewrite !app_length. apply Nat.add_le_mono; [|exact IH].
        destruct (pcs st j) as [| | | | | | | |m0 [x|]| |]; cbn; lia. }
      etransitivity; [exact Len|]. apply NoDup_incl_length; [exact (r_own _ _ _ _ _ _ st R)|].
      intros u I. apply in_app_or in I. destruct I as [I|I].
      * apply in_map_iff in I. destruct I as (x & <- & I). destruct (r_goodm _ _ _ _ _ _ st R x I) as (_ & _ & _ & _ & G & _). exact G.
      * apply in_flat_own in I. destruct I as (j & Hj & I).
        assert (Ne : ns st u <> 0%nat) by (destruct (own_in H (pk s) n cu L s c fixed found WF C HC eq_refl Hw st j u R Hj I) as [->| ->]; discriminate).
        destruct (r_elig _ _ _ _ _ _ st R u Ne) as (G & _). exact G.
Qed.

(** Gain caches: after recomputing the invalid terms of the reported moves every gain is exact again. *)
Lemma repaired_val G H s l : forall c u, ben (repaired G H s c l) u = ben c u /\ pen (repaired G H s c l) u = (if mem u l then gp_recompute G H s u else pen c u).
Proof.
  unfold repaired. induction l as [|a l IH]; intros c u; [split; reflexivity|]. cbn [fold_left].
  destruct (IH (recomputeInvalidTerms G H s c a) u) as [A B]. split; [rewrite A; reflexivity|]. rewrite B. cbn. unfold mem, upd. cbn [existsb].
  destruct (Nat.eqb_spec u a) as [Eq|Ne]; cbn [orb]; [rewrite Eq; destruct (existsb _ _); reflexivity|reflexivity].
Qed.
Lemma repaired_perm G H s c l l' u to : Permutation l l' -> cache_gain (repaired G H s c l) u to = cache_gain (repaired G H s c l') u to.
Proof.
  intros P. unfold cache_gain. destruct (repaired_val G H s l c u) as [-> ->], (repaired_val G H s l' c u) as [-> ->].
  replace (mem u l) with (mem u l'); [reflexivity|]. destruct (mem u l) eqn:E.
  - apply mem_In in E. apply mem_In. eapply Permutation_in; eauto.
  - destruct (mem u l') eqn:E'; [|reflexivity]. apply mem_In in E'. apply (Permutation_in _ (Permutation_sym P)) in E'. apply mem_In in E'. congruence.
Qed.
Theorem C61_gain_caches : forall H n L s fixed sched c0 st G cu obj, started H s -> (forall v, In v (nodes H) -> 0 <= nw H v) ->
  In (G, cu, obj) [(km1_policy, km1_mops, km1); (cut_policy, cut_mops, cut); (soed_policy, soed_mops, soed)] ->
  (forall u, In u (nodes H) -> Permutation (concat (sched u)) (inc H u)) ->
  reb_reach H n cu L s (initializeGainCache G H s sched c0) fixed st -> joined n st ->
  forall u from to, In u (nodes H) -> part (sh (rc st)) u = Some from -> from <> to -> (to < pk s)%nat ->
  cache_gain (recomputed H G st) u to = obj H (part (sh (rc st))) - obj H (move (part (sh (rc st))) u to).
Proof.
  intros H n L s fixed sched c0 st G cu obj St Hw Hin Hs (found & l & E) J u from to Hu Hp Hft Ht. pose proof St as (WF & C & HC).
  pose proof (init_inv H (pk s) n cu L s (initializeGainCache G H s sched c0) fixed found WF C HC eq_refl Hw) as R0.
  pose proof (run_inv H (pk s) n cu L s (initializeGainCache G H s sched c0) fixed found WF C HC eq_refl Hw l _ st R0 E) as R.
  destruct (run_proj H (pk s) n cu L s (initializeGainCache G H s sched c0) fixed found WF C HC eq_refl Hw l _ st R0 E) as (cl & Ec & Fl). cbn [rinit rc] in Ec.
  pose proof (end_quiescent H (pk s) n cu L s (initializeGainCache G H s sched c0) fixed found WF C HC eq_refl Hw st R J) as Q.
  assert (P : Permutation (map m_u (moves_linear st)) (moved_nodes (rc st))).
  { unfold moved_nodes. rewrite (end_linear H (pk s) n cu L s (initializeGainCache G H s sched c0) fixed found WF C HC eq_refl Hw st R J), (end_acc H (pk s) n cu L s (initializeGainCache G H s sched c0) fixed found WF C HC eq_refl Hw st R J).
    unfold accepted. rewrite map_map. reflexivity. }
  unfold recomputed. rewrite (repaired_perm _ _ _ _ _ _ u to P).
  destruct Hin as [X|[X|[X|[]]]]; injection X as <- <- <-.
  - eapply C10_km1_cache_concurrent; eauto.
  - eapply C10_cut_cache_concurrent; eauto.
  - eapply C10_soed_cache_concurrent; eauto.
Qed.

(** The rebalancer only gives up on an unbalanced partition when every task has run out of candidates. *)
Lemma rstep_nov H k n mops L st la st' : rstep H k n mops L st la = Some st' -> nov st' <= nov st /\
  (forall i, pcs st' i = REnd -> pcs st i = REnd \/ la = (i, AEmpty) \/ nov st' <= 0).
Proof.
  intros E. destruct la as [i a]. unfold rstep in E. destruct (Nat.ltb_spec i n) as [Hi|]; [|discriminate E].
  assert (Keep : forall p (x : nat), (p = REnd -> a = AEmpty \/ nov st' <= 0) -> upd (pcs st) i p x = REnd -> pcs st x = REnd \/ (i, a) = (x, AEmpty) \/ nov st' <= 0).
  { intros p x F X. unfold upd in X. destruct (Nat.eqb_spec x i) as [Eq|Ne]; [|left; exact X]. destruct (F X) as [Fa|Fn]; [|right; right; exact Fn].
    right. left. rewrite Eq, Fa. reflexivity. }
  destruct (pcs st i) as [| |u|m|m b|b| |m|m id|m id lo|] eqn:Ep; destruct a as [v| |to| |v|v|]; try discriminate E; try (destruct lo; discriminate E).
  - injection E as <-. split; [cbn; lia|]. intros x X. refine (Keep _ x _ X). cbn. destruct (Z.ltb_spec 0 (nov st)); [discriminate|]. intros _. right. lia.
  - destruct (Nat.eqb _ _) in E; injection E as <-; (split; [cbn; lia|]); intros x X; [|left; exact X]. refine (Keep _ x _ X). discriminate.
  - injection E as <-. split; [cbn; lia|]. intros x X. refine (Keep _ x _ X). intros _. left. reflexivity.
  - destruct (part _ _); [|discriminate E]. destruct (_ && _) in E; [|discriminate E]. injection E as <-. split; [cbn; lia|]. intros x X. refine (Keep _ x _ X). discriminate.
  - injection E as <-. split; [cbn; lia|]. intros x X. refine (Keep _ x _ X). discriminate.
  - destruct (part _ _); [|discriminate E]. injection E as <-. split; [cbn; lia|]. intros x X. refine (Keep _ x _ X). discriminate.
  - injection E as <-. split; [cbn; lia|]. intros x X. refine (Keep _ x _ X). destruct (_ <=? _); discriminate.
  - destruct (ov st b); injection E as <-; (split; [cbn; lia|]); intros x X; refine (Keep _ x _ X); discriminate.
  - injection E as <-. split; [cbn; lia|]. intros x X. refine (Keep _ x _ X). discriminate.
  - destruct (cstep _ _ _ _ _); [|discriminate E]. injection E as <-. split; [cbn; lia|]. intros x X. refine (Keep _ x _ X). discriminate.
  - destruct (_ && _) in E; [injection E as <-; split; [cbn; lia|]; intros x X; refine (Keep _ x _ X); discriminate|].
    destruct (cstep _ _ _ _ _) as [c|]; [|discriminate E]. injection E as <-. split; [cbn; lia|]. intros x X. refine (Keep _ x _ X).
    destruct (is_idle _); [|discriminate]. destruct (rep c) as [|[? [|]] ?]; discriminate.
  - assert (E' : exists p, (Some (set_pc (set_ns st v 2) i p) = Some st' \/ Some st = Some st') /\ p <> REnd)
      by (destruct lo; (destruct (_ && _) in E; [eexists; split; [left; exact E|discriminate]|exists RTop; split; [right; exact E|discriminate]])).
    destruct E' as (p & [E'|E'] & Np); injection E' as <-; (split; [cbn; lia|]); intros x X; [|left; exact X].
    refine (Keep _ x _ X). intros Y. congruence.
  - assert (E' : exists p, Some (set_pc (set_ns st v 1) i p) = Some st' /\ p <> REnd)
      by (destruct lo; (destruct (mem v _) in E; [|discriminate E]); (eexists; split; [exact E|discriminate])).
    destruct E' as (p & E' & Np); injection E' as <-. split; [cbn; lia|]. intros x X. refine (Keep _ x _ X). intros Y. congruence.
  - destruct lo; [|discriminate E]. injection E as <-. split; [cbn; lia|]. intros x X. refine (Keep _ x _ X). discriminate.
Qed.
Lemma rrun_end H k n mops L l : forall st st' (D : nat -> Prop), (forall i, pcs st i = REnd -> D i \/ nov st <= 0) ->
  rrun H k n mops L st l = Some st' -> forall i, pcs st' i = REnd -> (D i \/ In (i, AEmpty) l) \/ nov st' <= 0.
Proof.
  unfold rrun. induction l as [|a l IH]; intros st st' D HD E i X; cbn [fold_opt] in E.
  - injection E as <-. destruct (HD i X); tauto.
  - destruct (rstep H k n mops L st a) as [st1|] eqn:E1; [|discriminate E]. destruct (rstep_nov _ _ _ _ _ _ _ _ E1) as [N F].
    destruct (IH st1 st' (fun i => D i \/ a = (i, AEmpty))) with (i := i) as [[[Y|Y]|Y]|Y]; auto.
    + intros j Y. destruct (F j Y) as [Z1|[Z1|Z1]]; [|tauto|tauto]. destruct (HD j Z1); [tauto|right; lia].
    + left. right. left. exact Y.
    + left. right. right. exact Y.
Qed.
Theorem C61_gives_up_without_candidates : forall H n cu L s c fixed found l st, started H s -> (forall v, In v (nodes H) -> 0 <= nw H v) ->
  rrun H (pk s) n cu L (rinit H L s c fixed found) l = Some st -> joined n st ->
  returned (pk s) L st = false -> forall i, (i < n)%nat -> In (i, AEmpty) l.
Proof.
  intros H n cu L s c fixed found l st St Hw E J Rf i Hi.
  assert (Y := rrun_end H (pk s) n cu L l (rinit H L s c fixed found) st (fun _ => False) ltac:(intros j X; discriminate X) E i (J i Hi)). destruct Y as [[[]|X]|X]; [exact X|].
  exfalso. assert (RR : reb_reach H n cu L s c fixed st) by (exists found, l; exact E).
  destruct (C61_rebalancer H n cu L s c fixed st St Hw RR J) as (_ & _ & _ & _ & Q1 & Q2 & _).
  destruct St as (WF & C & HC).
  pose proof (init_inv H (pk s) n cu L s c fixed found WF C HC eq_refl Hw) as R0.
  pose proof (run_inv H (pk s) n cu L s c fixed found WF C HC eq_refl Hw l _ st R0 E) as R.
  destruct (end_nov H (pk s) n cu L s c fixed found WF C HC eq_refl Hw st R J) as [N _].
  assert (Z0 : nov st = 0) by lia. apply Q2, Q1 in Z0. congruence.
Qed.

(** Non-vacuity: three tasks on four nodes; block 0 (weight 4 > 3) is overloaded, node 0 is fixed. *)
Definition ex_Lr : nat -> Z := fun b => match b with 0%nat => 3 | _ => 6 end.
Definition rgreedy (n : nat) mops (st : rst) (l : list (nat * act)) : rst :=
  fold_left (fun st a => match rstep exH 2 n mops ex_Lr st a with Some st' => st' | None => st end) l st.
Lemma rgreedy_legal n mops l : forall st, exists l', rrun exH 2 n mops ex_Lr st l' = Some (rgreedy n mops st l).
Proof.
  unfold rrun, rgreedy. induction l as [|a l IH]; intros st; cbn [fold_left]; [exists []; reflexivity|].
  destruct (rstep exH 2 n mops ex_Lr st a) as [st1|] eqn:E.
  - destruct (IH st1) as (l' & El). exists (a :: l'). cbn [fold_opt]. rewrite E. exact El.
  - exact (IH st).
Qed.
Definition ex_fixed (u : nat) : bool := Nat.eqb u 0.
Definition ex_rinit : rst := rinit exH ex_Lr ex_state ex_cache ex_fixed (fun _ => true).
Definition ex_rsched : list (nat * act) :=
  [(0, AGo); (1, AGo); (2, AGo); (0, ATry 2); (1, ATry 2); (1, ATry 1); (1, AKeep 1); (0, AKeep 1); (0, AGo); (1, AGo); (1, AGo); (0, AGo); (0, AGo); (0, AGo)]%nat
  ++ flat_map (fun _ => [(1, AGo); (0, AGo); (2, ATry 1); (0, ANeigh 1); (0, ARelease 1); (2, ATry 0); (2, AKeep 1)]%nat) (seq 0 60)
  ++ [(2, AEmpty); (0, AEmpty); (1, AEmpty); (0, AGo); (1, AGo); (2, AGo)]%nat.
Definition ex_rend : rst := rgreedy 3 km1_mops ex_rinit ex_rsched.
Example ex_rstates : map (ns ex_rinit) [0;1;2;3]%nat = [0;1;1;0]%nat /\ map (pcs ex_rend) [0;1;2]%nat = [REnd; REnd; REnd] /\
  map m_u (moves_linear ex_rend) = [2;1]%nat /\ map (part (sh (rc ex_rend))) [0;1;2;3]%nat = [Some 0; Some 1; Some 1; Some 1]%nat /\
  returned 2 ex_Lr ex_rend = true /\ nov ex_rend = 1.
Proof. vm_compute. repeat split; reflexivity. Qed.
(** A second schedule: node 2 alone suffices, the next candidate finds block 0 light enough and is not moved. *)
Definition ex_rsched2 : list (nat * act) :=
  [(0, AGo); (0, ATry 2); (0, AKeep 1)]%nat ++ map (fun _ => (0%nat, AGo)) (seq 0 60)
  ++ [(1, AGo); (1, ATry 1); (1, AKeep 1); (1, AGo); (1, AGo); (1, AGo); (1, AGo); (1, AGo); (2, AGo); (0, AEmpty)]%nat.
Definition ex_rend2 : rst := rgreedy 3 km1_mops ex_rinit ex_rsched2.
Example ex_rstates2 : map (pcs ex_rend2) [0;1;2]%nat = [REnd; REnd; REnd] /\ map m_u (moves_linear ex_rend2) = [2]%nat /\ map (part (sh (rc ex_rend2))) [0;1;2;3]%nat = [Some 0; Some 0; Some 1; Some 1]%nat /\ nov ex_rend2 = 0 /\ returned 2 ex_Lr ex_rend2 = true.
Proof. vm_compute. repeat split; reflexivity. Qed.
Lemma ex_reb_reach : reb_reach exH 3 km1_mops ex_Lr ex_state ex_cache ex_fixed ex_rend /\ reb_reach exH 3 km1_mops ex_Lr ex_state ex_cache ex_fixed ex_rend2.
Proof.
  split.
  - destruct (rgreedy_legal 3 km1_mops ex_rsched ex_rinit) as [l E]. exists (fun _ => true), l. exact E.
  - destruct (rgreedy_legal 3 km1_mops ex_rsched2 ex_rinit) as [l E]. exists (fun _ => true), l. exact E.
Qed.
Lemma ex_joined : joined 3 ex_rend /\ joined 3 ex_rend2.
Proof. split; intros i Hi; destruct i as [|[|[|i]]]; [..|lia|reflexivity|reflexivity|reflexivity|lia]; vm_compute; reflexivity. Qed.
