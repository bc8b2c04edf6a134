(** Revert.v - reverting the suffix of a move sequence in parallel (global_rollback.cpp:178-191) and the sequential
    variant (global_rollback.cpp:395-459). *)
From Verif Require Import Base Spec SpecLemmas WfCheck PHG PHGProofs Objective GainCache GainCacheProofs Conc ConcProofs ConcMore ConcRun PropsA Rollback RollbackProofs Scan.

(** ---- no block weight ever exceeds the total weight, so moves without a limit are never rejected ---- *)
Section NoReject.
Variables (H : hypergraph) (k n : nat) (mops : hypergraph -> sync_update -> list mop).
Hypothesis (WF : wf_hg H) (NWP : forall v, In v (nodes H) -> 0 <= nw H v).

Lemma wt_le_total st eff b : Base H k n st eff -> (b < k)%nat -> wt (sh st) b <= total_weight H.
Proof.
  intros B Hb. rewrite (b_wt H k n st eff B b Hb), block_weight_sum.
  set (own := fun i v => match mv_of (th st i) with Some m => Nat.eqb v (m_u m) | None => false end).
  assert (E : sumZ (fun i => cwt H (th st i) b) (seq 0 n) = sumZ (fun v => sumZ (fun i => if own i v then cwt H (th st i) b else 0) (seq 0 n)) (nodes H)).
  { rewrite (sumZ_swap (fun v i => if own i v then cwt H (th st i) b else 0)). apply sumZ_ext. intros i Hi. apply in_seq in Hi. unfold own.
    destruct (mv_of (th st i)) as [m|] eqn:Em.
    - rewrite (sumZ_indicator (nodes H) (m_u m) (fun _ => cwt H (th st i) b)) by apply WF.
      assert (X : mem (m_u m) (nodes H) = true) by (apply mem_In, (b_mv H k n st eff B i m); [lia|exact Em]). rewrite X. reflexivity.
    - rewrite sumZ_zero by reflexivity. destruct (th st i); try discriminate Em; reflexivity. }
  rewrite E, <- sumZ_plus. unfold total_weight. apply sumZ_le. intros v Hv. specialize (NWP v Hv).
  destruct (existsb (fun i => own i v) (seq 0 n)) eqn:Ex.
  - apply existsb_exists in Ex. destruct Ex as (i & Hi & Ho). apply in_seq in Hi. unfold own in Ho. destruct (mv_of (th st i)) as [m|] eqn:Em; [|discriminate].
    apply Nat.eqb_eq in Ho. subst v.
    rewrite (sumZ_ext _ (fun j => if Nat.eqb j i then cwt H (th st i) b else 0)).
    2: { intros j Hj. apply in_seq in Hj. unfold own. destruct (Nat.eqb_spec j i) as [->|Hji]; [rewrite Em, Nat.eqb_refl; reflexivity|].
      destruct (mv_of (th st j)) as [m'|] eqn:Em'; [|reflexivity]. pose proof (b_nodes H k n st eff B i j m m' ltac:(lia) ltac:(lia) ltac:(congruence) Em Em').
      destruct (Nat.eqb_spec (m_u m) (m_u m')); [contradiction|reflexivity]. }
    rewrite (sumZ_indicator (seq 0 n) i (fun _ => cwt H (th st i) b)) by apply seq_NoDup.
    assert (X : mem i (seq 0 n) = true) by (apply mem_In, in_seq; lia). rewrite X.
    pose proof (b_cur H k n st eff B i m ltac:(lia) Em) as Hc. pose proof (b_mv H k n st eff B i m ltac:(lia) Em) as (_ & Hft & _). unfold in_block. rewrite Hc.
    destruct (th st i) as [|m0 a|m0|m0 rem|m0 e rem|m0 e rem fa|m0 rem su|m0 rem ops]; cbn [mv_of] in Em; try discriminate Em; injection Em as ->; cbn [stored cwt];
      try (destruct (Nat.eqb_spec (m_to m) b); lia).
    + destruct (Nat.eqb_spec (m_from m) b), (Nat.eqb_spec b (m_to m)); try lia; congruence.
    + destruct (Nat.eqb_spec (m_to m) b), (Nat.eqb_spec b (m_from m)); try lia; congruence.
  - rewrite sumZ_zero; [destruct (in_block (part (sh st)) b v); lia|]. intros i Hi. destruct (own i v) eqn:Eo; [|reflexivity]. exfalso.
    assert (existsb (fun i => own i v) (seq 0 n) = true) by (apply existsb_exists; exists i; auto). congruence.
Qed.

Definition accepted (st : cst) : Prop :=
  (forall m b, In (m, b) (rep st) -> b = true) /\
  (forall i m, (i < n)%nat -> mv_of (th st i) = Some m -> total_weight H <= m_max m) /\
  (forall i m a, (i < n)%nat -> th st i = Added m a -> a <= total_weight H).
Definition unlimited (l : label) : Prop := match l with Begin _ m => total_weight H <= m_max m | Adv _ => True end.

Lemma accepted_step st l st' eff : Base H k n st eff -> accepted st -> unlimited l -> cstep H n mops st l = Some st' -> accepted st'.
Proof.
  intros B (A1 & A2 & A3) U Hs. pose proof (step_base H k n mops WF st eff l st' B Hs) as B'.
  destruct l as [i m|i]; cbn [cstep] in Hs.
  - destruct (th st i) eqn:Et; try discriminate. destruct (_ && _) eqn:G; [|discriminate]. injection Hs as <-.
    repeat (apply andb_true_iff in G; destruct G as [G ?]). apply Nat.ltb_lt in G.
    split; [exact A1|]. split.
    + intros j m' Hj. cbn. unfold upd. destruct (Nat.eqb_spec j i) as [->|]; [cbn; intros X; injection X as <-; exact U|apply A2, Hj].
    + intros j m' a Hj. cbn [th set_th]. intros X. pose proof X as X0. unfold upd in X at 1. destruct (Nat.eqb_spec j i) as [->|]; [|apply (A3 j m' a Hj X)].
      injection X as <- <-. apply (wt_le_total _ _ (m_to m) B'). apply Nat.ltb_lt. rewrite <- (b_k H k n st eff B). assumption.
  - destruct (i <? n)%nat eqn:Hi; [|discriminate]. apply Nat.ltb_lt in Hi. unfold adv in Hs.
    assert (G : forall t s' lk' gc' lg rp, (forall m b, In (m, b) rp -> b = true) -> (forall m, mv_of t = Some m -> total_weight H <= m_max m) ->
       (forall m a, t = Added m a -> a <= total_weight H) -> accepted (mkC s' lk' (upd (th st) i t) gc' lg rp)).
    { intros t s' lk' gc' lg rp R1 R2 R3. split; [exact R1|]. split.
      - intros j m Hj. cbn [th]. unfold upd. destruct (Nat.eqb_spec j i) as [->|]; [apply R2|apply A2, Hj].
      - intros j m a Hj. cbn [th]. unfold upd. destruct (Nat.eqb_spec j i) as [->|]; [apply R3|apply A3, Hj]. }
    destruct (th st i) as [|m a|m|m rem|m e rem|m e rem fa|m rem su|m rem ops] eqn:Et; try discriminate.
    all: assert (Hm : total_weight H <= m_max m) by (apply (A2 i m Hi); rewrite Et; reflexivity).
    + pose proof (A3 i m a Hi Et) as Ha. replace (a <=? m_max m) with true in Hs by lia. injection Hs as <-. apply G; [exact A1| |discriminate].
      intros m' X. injection X as <-. exact Hm.
    + injection Hs as <-. apply G; [exact A1| |discriminate]. intros m' X. injection X as <-. exact Hm.
    + destruct rem as [|e rem].
      * injection Hs as <-. apply G; [|discriminate|discriminate]. intros m' b [X|X]; [congruence|eapply A1; exact X].
      * destruct (lk st e); [discriminate|]. injection Hs as <-. apply G; [exact A1| |discriminate]. intros m' X. injection X as <-. exact Hm.
    + destruct (decrementPinCountOfBlock _ _ _) as [[s' fa]|]; [|discriminate]. injection Hs as <-. apply G; [exact A1| |discriminate]. intros m' X. injection X as <-. exact Hm.
    + destruct (incrementPinCountOfBlock _ _ _) as [[s' ta]|]; [|discriminate]. injection Hs as <-. apply G; [exact A1| |discriminate]. intros m' X. injection X as <-. exact Hm.
    + injection Hs as <-. apply G; [exact A1| |discriminate]. intros m' X. injection X as <-. exact Hm.
    + destruct ops as [|o ops].
      * injection Hs as <-. apply G; [exact A1| |discriminate]. intros m' X. injection X as <-. exact Hm.
      * destruct (exec_mop _ _ _ _) as [c' ops']. injection Hs as <-. apply G; [exact A1| |discriminate]. intros m' X. injection X as <-. exact Hm.
Qed.
End NoReject.

Lemma unlimited_accepted H n mops s c l st : started H s -> (forall v, In v (nodes H) -> 0 <= nw H v) ->
  Forall (unlimited H) l -> crun H n mops (cinit s c) l = Some st -> forall m b, In (m, b) (rep st) -> b = true.
Proof.
  intros (WF & C & HC) NWP U E.
  assert (X : forall l st0 eff, Forall (unlimited H) l -> Base H (pk s) n st0 eff -> accepted H n st0 -> crun H n mops st0 l = Some st -> accepted H n st).
  { clear E U l. unfold crun. induction l as [|a l IH]; intros st0 eff U B A E; simpl in E; [injection E as <-; exact A|].
    inversion U; subst. destruct (cstep H n mops st0 a) as [st1|] eqn:E1; [|discriminate]. eapply IH; [assumption| | |exact E].
    - eapply step_base; eauto.
    - eapply accepted_step; eauto. }
  apply (X l (cinit s c) (fun _ => part s) U (base_init H n mops s c C HC)); [|exact E].
  split; [intros m b []|]. split; intros; discriminate.
Qed.

(** ---- each call that was started has returned at quiescence ---- *)
Definition begins (l : list label) : list mv := flat_map (fun a => match a with Begin _ m => [m] | Adv _ => [] end) l.
Definition flying (n : nat) (th : nat -> tst) : list mv := flat_map (fun i => match mv_of (th i) with Some m => [m] | None => [] end) (seq 0 n).

Lemma flat_map_change {B} (g g' : nat -> list B) i l : NoDup l -> In i l -> (forall j, j <> i -> g' j = g j) ->
  Permutation (g i ++ flat_map g' l) (g' i ++ flat_map g l).
Proof.
  intros N Hi E. induction l as [|a l IH]; [destruct Hi|]. apply NoDup_cons_iff in N. destruct N as [Na N]. simpl. destruct (Nat.eq_dec a i) as [->|Hai].
  - assert (X : flat_map g' l = flat_map g l). { clear IH Hi N. induction l as [|x l IH2]; [reflexivity|]. simpl. rewrite IH2 by (intros Y; apply Na; right; exact Y).
      rewrite E; [reflexivity|]. intros ->. apply Na. left. reflexivity. }
    rewrite X, !app_assoc. apply Permutation_app_tail, Permutation_app_comm.
  - destruct Hi as [Hi|Hi]; [congruence|]. rewrite (E a Hai). specialize (IH N Hi).
    rewrite !app_assoc. rewrite (Permutation_app_comm (g i) (g a)), (Permutation_app_comm (g' i) (g a)), <- !app_assoc. apply Permutation_app_head, IH.
Qed.

Lemma flying_step H n mops st a st' : cstep H n mops st a = Some st' ->
  Permutation (begins [a] ++ flying n (th st) ++ map fst (rep st)) (flying n (th st') ++ map fst (rep st')).
Proof.
  intros Hs.
  assert (G : forall i t, (i < n)%nat -> Permutation ((match mv_of (th st i) with Some m => [m] | None => [] end) ++ flying n (upd (th st) i t))
     ((match mv_of t with Some m => [m] | None => [] end) ++ flying n (th st))).
  { intros i t Hi. unfold flying.
    pose proof (flat_map_change (fun j => match mv_of (th st j) with Some m => [m] | None => [] end)
      (fun j => match mv_of (upd (th st) i t j) with Some m => [m] | None => [] end) i (seq 0 n) (seq_NoDup _ _)) as X.
    cbv beta in X. rewrite upd_same in X. apply X; [apply in_seq; lia|]. intros j Hj. rewrite upd_other by exact Hj. reflexivity. }
  destruct a as [i m|i]; cbn [cstep] in Hs.
  - destruct (th st i) eqn:Et; try discriminate. destruct (_ && _) eqn:Gd; [|discriminate]. injection Hs as <-.
    repeat (apply andb_true_iff in Gd; destruct Gd as [Gd ?]). apply Nat.ltb_lt in Gd.
    cbn [begins flat_map app th set_th rep set_sh]. specialize (G i (Added m (wt (add_wt (sh st) (m_to m) (nw H (m_u m))) (m_to m))) Gd). rewrite Et in G. cbn [mv_of app] in G.
    apply Permutation_sym. apply (Permutation_app_tail (map fst (rep st)) G).
  - destruct (i <? n)%nat eqn:Hi; [|discriminate]. apply Nat.ltb_lt in Hi. unfold adv in Hs. cbn [begins flat_map app].
    assert (Same : forall t m, mv_of (th st i) = Some m -> mv_of t = Some m -> Permutation (flying n (th st) ++ map fst (rep st)) (flying n (upd (th st) i t) ++ map fst (rep st))).
    { intros t m E1 E2. specialize (G i t Hi). rewrite E1, E2 in G. cbn [app] in G. apply Permutation_cons_inv in G. apply Permutation_app_tail, Permutation_sym, G. }
    assert (Done : forall m b, mv_of (th st i) = Some m -> Permutation (flying n (th st) ++ map fst (rep st)) (flying n (upd (th st) i Idle) ++ map fst ((m, b) :: rep st))).
    { intros m b E1. specialize (G i Idle Hi). rewrite E1 in G. cbn [app mv_of] in G. cbn [map fst]. rewrite <- Permutation_middle. apply Permutation_sym.
      apply (Permutation_app_tail (map fst (rep st)) G). }
    destruct (th st i) as [|m a|m|m rem|m e rem|m e rem fa|m rem su|m rem ops] eqn:Et; try discriminate.
    + destruct (a <=? m_max m); injection Hs as <-; cbn [th set_th rep set_sh]; [eapply Same; reflexivity|apply Done; reflexivity].
    + injection Hs as <-. eapply Same; reflexivity.
    + destruct rem as [|e rem]; [injection Hs as <-; apply Done; reflexivity|]. destruct (lk st e); [discriminate|]. injection Hs as <-. eapply Same; reflexivity.
    + destruct (decrementPinCountOfBlock _ _ _) as [[s' fa]|]; [|discriminate]. injection Hs as <-. eapply Same; reflexivity.
    + destruct (incrementPinCountOfBlock _ _ _) as [[s' ta]|]; [|discriminate]. injection Hs as <-. eapply Same; reflexivity.
    + injection Hs as <-. eapply Same; reflexivity.
    + destruct ops as [|o ops]; [injection Hs as <-; eapply Same; reflexivity|]. destruct (exec_mop _ _ _ _) as [c' ops']. injection Hs as <-. eapply Same; reflexivity.
Qed.

Lemma all_returned H n mops l : forall st st', crun H n mops st l = Some st' ->
  Permutation (begins l ++ flying n (th st) ++ map fst (rep st)) (flying n (th st') ++ map fst (rep st')).
Proof.
  induction l as [|a l IH]; intros st st' E; cbn in E; [injection E as <-; apply Permutation_refl|].
  destruct (cstep H n mops st a) as [st1|] eqn:E1; [|discriminate].
  assert (EB : begins (a :: l) = begins [a] ++ begins l) by (cbn [begins flat_map]; rewrite app_nil_r; reflexivity). rewrite EB.
  eapply perm_trans; [|apply (IH st1 st' E)].
  rewrite <- app_assoc. rewrite (Permutation_app_comm (begins [a])), <- app_assoc. apply Permutation_app_head.
  eapply perm_trans; [apply Permutation_app_comm|]. apply (flying_step _ _ _ _ _ _ E1).
Qed.

Lemma quiescent_returned H n mops s c l st : crun H n mops (cinit s c) l = Some st -> quiescent n st ->
  Permutation (begins l) (map fst (rep st)).
Proof.
  intros E Q. pose proof (all_returned H n mops l _ _ E) as X.
  assert (F0 : forall th, (forall i, (i < n)%nat -> th i = Idle) -> flying n th = []).
  { intros th0 HI. unfold flying. assert (Y : forall l0, (forall i, In i l0 -> (i < n)%nat) -> flat_map (fun i => match mv_of (th0 i) with Some m => [m] | None => [] end) l0 = []).
    { induction l0 as [|a l0 IH]; intros Hl; [reflexivity|]. simpl. rewrite HI by (apply Hl; left; reflexivity). apply IH. intros i Hi. apply Hl. right. exact Hi. }
    apply Y. intros i Hi. apply in_seq in Hi. lia. }
  rewrite (F0 (th st) Q), (F0 (th (cinit s c))) in X by reflexivity. cbn [cinit rep map app] in X. rewrite app_nil_r in X. exact X.
Qed.

(** ---- replay of accepted moves of distinct nodes ---- *)
Lemma replay_distinct P r : (forall m b, In (m, b) r -> b = true) -> NoDup (map m_u (map fst r)) ->
  (forall m, In m (map fst r) -> replay P r (m_u m) = Some (m_to m)) /\ (forall v, ~ In v (map m_u (map fst r)) -> replay P r v = P v).
Proof.
  induction r as [|[m b] r IH]; intros A N; [split; [intros m []|reflexivity]|].
  cbn [map fst] in N. apply NoDup_cons_iff in N. destruct N as [Nm N]. assert (b = true) as -> by (apply (A m b); left; reflexivity).
  destruct (IH ltac:(intros m' b' X; apply (A m' b'); right; exact X) N) as [I1 I2]. cbn [replay fold_right fst snd map]. fold (replay P r). split.
  - intros m' [<-|Hm']; [apply upd_same|]. unfold move. rewrite upd_other; [apply I1, Hm'|]. intros E. apply Nm. rewrite <- E. apply in_map, Hm'.
  - intros v Hv. unfold move. rewrite upd_other; [apply I2|]; intros X; apply Hv; [right; exact X|left; symmetry; exact X].
Qed.

(** The moves started by the parallel loop over [best, numMoves). *)
Definition revert_of (o : option rmove) : list mv :=
  match o with Some m => [mkMv (r_node m) (r_to m) (r_from m) MAXW] | None => [] end.
Definition reverts (t : tracker) (best : nat) : list mv := flat_map revert_of (skipn best (t_order t)).

Lemma in_skipn_nth {X} (l : list X) j x : In x (skipn j l) <-> exists i, (j <= i)%nat /\ nth_error l i = Some x.
Proof.
  split.
  - intros Hx. apply In_nth_error in Hx. destruct Hx as [i Hi]. exists (j + i)%nat. split; [lia|]. rewrite <- Hi. clear Hi x.
    revert l; induction j as [|j IH]; intros [|a l]; simpl; try reflexivity; [destruct i; reflexivity|apply IH].
  - intros (i & Hij & Hi). revert i l Hij Hi. induction j as [|j IH]; intros i l Hij Hi; [apply nth_error_In in Hi; exact Hi|].
    destruct l as [|a l]; [destruct i; discriminate|]. destruct i as [|i]; [lia|]. simpl in *. apply (IH i l); [lia|exact Hi].
Qed.

Lemma in_reverts t best m : In m (reverts t best) <-> exists i r, (best <= i)%nat /\ nth_error (t_order t) i = Some (Some r) /\ m = mkMv (r_node r) (r_to r) (r_from r) MAXW.
Proof.
  unfold reverts. rewrite in_flat_map. split.
  - intros (o & Ho & Hm). apply in_skipn_nth in Ho. destruct Ho as (i & Hi & En). destruct o as [r|]; [|destruct Hm]. destruct Hm as [<-|[]]. exists i, r. auto.
  - intros (i & r & Hi & En & ->). exists (Some r). split; [apply in_skipn_nth; exists i; auto|left; reflexivity].
Qed.

Lemma reverts_nodup H k P0 t best : round_ok H k P0 t -> NoDup (map m_u (reverts t best)).
Proof.
  intros RO. unfold reverts.
  assert (G : forall l j, (forall i, nth_error l i = nth_error (t_order t) (j + i)) -> NoDup (map m_u (flat_map revert_of l)) /\
     forall u, In u (map m_u (flat_map revert_of l)) -> t_first t + Z.of_nat j <= t_of t u).
  { induction l as [|o l IH]; intros j E; [split; [constructor|intros u []]|].
    destruct (IH (S j)) as [I1 I2]. { intros i. specialize (E (S i)). simpl in E. rewrite E. f_equal. lia. }
    pose proof (E 0%nat) as E0. rewrite Nat.add_0_r in E0. simpl in E0. destruct o as [r|]; cbn [flat_map revert_of map app m_u].
    - destruct (ro_valid H k P0 t RO j r (eq_sym E0)) as (_ & _ & _ & _ & X). split.
      + constructor; [|exact I1]. intros Hin. apply I2 in Hin. lia.
      + intros u [<-|Hu]; [lia|]. apply I2 in Hu. lia.
    - split; [exact I1|]. intros u Hu. apply I2 in Hu. lia. }
  destruct (G (skipn best (t_order t)) best) as [X _]; [|exact X]. intros i. clear G. generalize (t_order t). revert i.
  induction best as [|best IH]; intros i [|a l]; simpl; try reflexivity; [destruct i; reflexivity|apply IH].
Qed.

(** C28: the suffix of the sequence is reverted by concurrent calls of changeNodePart (one per valid move of the
    suffix, started in any order by any threads, interleaved in any way).  When all have returned, the partition is
    exactly the result of executing the first [best] moves from the initial partition: block ids, block weights, pin
    counts, connectivity. *)
Theorem C28_revert_restores_prefix : forall H k P0 t s n cache_updates c l st best, after_round H k P0 t s ->
  (forall v, In v (nodes H) -> 0 <= nw H v) -> total_weight H <= MAXW -> (best <= numMoves t)%nat ->
  crun H n cache_updates (cinit s c) l = Some st -> quiescent n st -> Permutation (begins l) (reverts t best) ->
  (forall v, In v (nodes H) -> part (sh st) v = prefix P0 t best v) /\
  (forall b, (b < k)%nat -> partWeight (sh st) b = block_weight H (prefix P0 t best) b) /\
  (forall e b, In e (edges H) -> (b < k)%nat -> pinCountInPart (sh st) e b = pin_count H (prefix P0 t best) e b) /\
  (forall e, In e (edges H) -> conn (sh st) e = connectivity H (prefix P0 t best) e) /\
  consistent H (sh st) /\ pk (sh st) = k.
Proof.
  intros H k P0 t s n mops c l st best A NWP HT Hb E Q Pm. pose proof A as [WF RO HC Ek C Hp].
  assert (HCs : complete H (part s) (pk s)).
  { intros v Hv. rewrite Ek, (Hp v Hv), (prefix_at H k P0 t _ RO) by lia. apply (at_complete H k P0 t _ RO HC v Hv). }
  assert (ST : started H s) by (split; [exact WF|split; [exact C|exact HCs]]).
  assert (U : Forall (unlimited H) l).
  { apply Forall_forall. intros a Ha. destruct a as [i m|i]; [|exact I]. cbn [unlimited].
    assert (X : In m (reverts t best)). { eapply Permutation_in; [exact Pm|]. apply in_flat_map. exists (Begin i m). split; [exact Ha|left; reflexivity]. }
    apply in_reverts in X. destruct X as (i0 & r & _ & _ & ->). exact HT. }
  pose proof (unlimited_accepted H n mops s c l st ST NWP U E) as AC.
  pose proof (Permutation_trans (Permutation_sym Pm) (quiescent_returned H n mops s c l st E Q)) as PR.
  assert (ND : NoDup (map m_u (map fst (rep st)))) by (eapply Permutation_NoDup; [apply Permutation_map; exact PR|apply (reverts_nodup H k P0 t best RO)]).
  destruct (replay_distinct (part s) (rep st) AC ND) as [R1 R2].
  destruct (conc_quiescent H n mops WF s c l st C HCs E Q) as (K & C' & _ & R).
  assert (EP : forall v, In v (nodes H) -> part (sh st) v = prefix P0 t best v).
  { intros v Hv. rewrite R, (prefix_at H k P0 t best RO Hb). unfold at_time.
    destruct (move_of t v) as [[id m]|] eqn:Em.
    - destruct (move_of_inv t v id m Em) as (j & Hj & -> & En & _). pose proof (ro_node H k P0 t RO v _ m Em) as <-.
      destruct (Z.ltb_spec (t_first t + Z.of_nat j) (t_first t + Z.of_nat best)) as [Hlt|Hge].
      + rewrite R2.
        * rewrite (Hp (r_node m) Hv), (prefix_at H k P0 t _ RO), at_all, Em by lia. reflexivity.
        * intros X. eapply Permutation_in in X; [|apply Permutation_sym, Permutation_map, PR]. apply in_map_iff in X. destruct X as (m' & Eu & X).
          apply in_reverts in X. destruct X as (i & r & Hi & En' & ->). cbn [m_u] in Eu.
          destruct (ro_valid H k P0 t RO i r En') as (_ & _ & _ & _ & X1). destruct (ro_valid H k P0 t RO j m En) as (_ & _ & _ & _ & X2). rewrite Eu in X1. lia.
      + assert (X : In (mkMv (r_node m) (r_to m) (r_from m) MAXW) (map fst (rep st))).
        { eapply Permutation_in; [exact PR|]. apply in_reverts. exists j, m. split; [lia|auto]. }
        apply (R1 _ X).
    - rewrite R2.
      + rewrite (Hp v Hv), (prefix_at H k P0 t _ RO), at_all, Em by lia. reflexivity.
      + intros X. eapply Permutation_in in X; [|apply Permutation_sym, Permutation_map, PR]. apply in_map_iff in X. destruct X as (m' & Eu & X).
        apply in_reverts in X. destruct X as (i & r & Hi & En' & ->). cbn [m_u] in Eu. subst v.
        destruct (ro_valid H k P0 t RO i r En') as (_ & _ & _ & _ & X1). rewrite (move_of_idx t i r En' X1) in Em. discriminate. }
  split; [exact EP|].
  assert (Kk : pk (sh st) = k) by lia. split; [|split; [|split; [|split; [exact C'|exact Kk]]]].
  - intros b Hbk. unfold partWeight. rewrite (c_wt H (sh st) C' b) by lia. apply block_weight_ext. exact EP.
  - intros e b He Hbk. unfold pinCountInPart. rewrite (c_pc H (sh st) C' e b He) by lia. apply pin_count_ext. intros v Hv. apply EP, (wf_pins_nodes H WF e v He Hv).
  - intros e He. rewrite (conn_eq H (sh st) e WF C' He). apply connectivity_ext. intros v Hv. apply EP, (wf_pins_nodes H WF e v He Hv).
Qed.
