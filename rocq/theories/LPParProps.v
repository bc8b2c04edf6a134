(** LPParProps.v - C73: label propagation with parallel loops. *)
From Verif Require Import Base Spec SpecLemmas PHG PHGProofs GainCache Metrics PropsA WfCheck Conc ConcProofs DetLP DetLPThms DetLPProps Jet JetThms JetProps Scan Rebalance LP LPThms LPSeq LPPool LPPoolThms LPPar.

Section Props.
Variables (H : hypergraph) (k : nat) (L PB : nat -> Z) (o : objective) (fixed : nat -> bool) (un rebal : bool) (thr : Z).
Variables (D : Type) (imb : list Z -> D) (dlt : D -> D -> bool) (small : Z -> Z -> bool).
Variables (large_k : bool) (removed : Z).
Local Notation weights P := (map (block_weight H P) (seq 0 k)).
Local Notation ok := (acceptable H k L large_k removed).
(** LabelPropagationRefiner::refine with parallel loops and the rebalancer of C61; [ud]: only executions in which the tasks compute
    their moves undisturbed. *)
Definition par_lp (ud : bool) (rollb : list nat -> (nat -> option nat) -> phg -> phg -> Prop) (maxit : nat) (refine : list nat) : phg -> Z -> D -> phg -> Z -> D -> bool -> Prop :=
  let mu := un && negb (isnil refine) in
  refine_lp H k L mu un rebal thr D imb dlt small large_k removed (pphase H k L PB o fixed mu rebal thr ud) (rebalancer H L o fixed) rollb maxit refine.
(** Executions in which no node occurs twice in a rollback. *)
Definition distinct_rollback (l : list nat) (od : nat -> option nat) (s s' : phg) : Prop := NoDup l /\ prollb H o l od s s'.
Hypotheses (Wn : forall v, In v (nodes H) -> 0 <= nw H v) (Wt : total_weight H <= MAXW).
Hypothesis TR : forall a b c, dlt a b = true -> dlt b c = true -> dlt a c = true.

(** Parallel label propagation under all schedules: consistent data, exact metrics, fixed vertices stay, block weights stay within the
    larger of limit and previous weight (constrained), acceptable partitions stay acceptable (unconstrained). *)
Theorem C73_parallel : forall ud maxit refine s q i s' q' i' ret, started H s -> pk s = k -> incl refine (nodes H) -> NoDup refine ->
  q = obj_spec o H (part s) -> i = imb (weights (part s)) ->
  par_lp ud distinct_rollback maxit refine s q i s' q' i' ret ->
  started H s' /\ pk s' = k /\ q' = obj_spec o H (part s') /\ i' = imb (weights (part s')) /\ (forall v, fixed v = true -> part s' v = part s v) /\
  (un = false -> forall b, (b < k)%nat -> block_weight H (part s') b <= Z.max (L b) (block_weight H (part s) b)) /\
  (un = true -> (ok (part s) -> ok (part s')) /\ (ok (part s') \/ dlt i' i = true \/ forall v, part s' v = part s v)) /\
  ret = (q' <? q).
Proof.
  intros ud maxit refine s q i s' q' i' ret ST K Sub Nd Q I R. unfold par_lp in R.
  destruct (refine_ok H k L o fixed _ un rebal thr D imb dlt small large_k removed true _ _ _ (pphase_good H k L PB o fixed _ rebal thr Wn Wt ud) (rebalancer_good H k L o fixed Wn) (prollb_good H k L PB o fixed Wn Wt) TR
    maxit refine s q i s' q' i' ret R Sub (fun _ => Nd) (conj ST K) Q I) as ([S1 S2] & A1 & A2 & A3 & A4 & A5 & A6 & A7).
  repeat (split; [assumption|]). exact A3.
Qed.
(** In particular the constrained variant needs no condition on rollbacks: it has none. *)
Theorem C73_constrained : forall ud rollb maxit refine s q i s' q' i' ret, un = false -> started H s -> pk s = k -> incl refine (nodes H) -> NoDup refine ->
  q = obj_spec o H (part s) -> i = imb (weights (part s)) ->
  par_lp ud rollb maxit refine s q i s' q' i' ret ->
  started H s' /\ pk s' = k /\ q' = obj_spec o H (part s') /\ i' = imb (weights (part s')) /\ (forall v, fixed v = true -> part s' v = part s v) /\
  forall b, (b < k)%nat -> block_weight H (part s') b <= Z.max (L b) (block_weight H (part s) b).
Proof.
  intros ud rollb maxit refine s q i s' q' i' ret U ST K Sub Nd Q I R.
  assert (R' : par_lp ud distinct_rollback maxit refine s q i s' q' i' ret).
  { unfold par_lp in *. destruct R as (act & od & x' & E1 & E2 & R & E3). exists act, od, x'. split; [exact E1|]. split; [exact E2|]. split; [|exact E3]. clear E3.
    induction R as [n x E|n x x' b A R E|n x x' x'' A R E R' IH].
    - apply L_stop. exact E.
    - eapply L_last; [exact A| |exact E]. destruct R; try (exfalso; congruence). eapply R_con; eassumption.
    - eapply L_next; [exact A| |exact E|exact IH]. inversion R; subst; try (exfalso; congruence). eapply R_con; eassumption. }
  destruct (C73_parallel ud maxit refine s q i s' q' i' ret ST K Sub Nd Q I R') as (A1 & A2 & A3 & A4 & A5 & A6 & _). repeat (split; [assumption|]). exact (A6 U).
Qed.
(** The tasks respect the contract of changeNodePart in every reachable state of the loop: the node is in the block the call starts
    from, the target is another existing block, and no other thread is moving the node. *)
Theorem C73_calls_legal : forall u mu n mops act s c x ls st, started H s -> pk s = k -> incl act (nodes H) -> NoDup act ->
  prun H n mops (gain_of o) (fun _ _ => true) (pmay k L fixed rebal u) (pagain L u) (pfin H mu thr u) (pinit s c act x) ls = Some st ->
  forall i m g r, (i < n)%nat -> p_pc st i = TCall m g r ->
  part (sh (p_c st)) (m_u m) = Some (m_from m) /\ m_from m <> m_to m /\ (m_to m < k)%nat /\ In (m_u m) act /\ fixed (m_u m) = false /\ forall j, (j < n)%nat -> node_of (th (p_c st) j) <> Some (m_u m).
Proof.
  intros u mu n mops act s c x ls st (WF & C & HC) K An Nd E i m g r Hi Ep.
  assert (I : PI H k n mops (cap L u) (mokp fixed u) (fun _ _ => True) (fun _ => True) act s c st).
  { refine (prun_PI H k n mops (gain_of o) (fun _ _ => true) (pmay k L fixed rebal u) (pagain L u) (pfin H mu thr u) WF Wn Wt (cap L u) (mokp fixed u) (fun _ _ => True) (fun _ => True) act _ _ _ _ _ s c x K An ls _ st _ E); auto.
    - intros P m' y Hm Pm Hv. unfold pmay in Hm. repeat (apply andb_true_iff in Hm; destruct Hm as [Hm ?]). apply negb_true_iff in Hm. unfold mokp. repeat match goal with X : negb _ = true |- _ => apply negb_true_iff in X end. split; [apply Nat.eqb_neq; assumption|]. split; [apply Nat.ltb_lt; assumption|]. split; [lia|exact Hm].
    - intros m0 y b a m' Hm Mm. unfold pagain in Hm. destruct ((u || b) && negb (LPPar.accepted y a)) eqn:G; [|discriminate]. injection Hm as <-. split; [reflexivity|]. split; [|exact Mm]. apply andb_true_iff in G. destruct G as [G _]. apply orb_true_iff in G. destruct G as [->|G]; [right; intros q; reflexivity|left; exact G].
    - apply PI_init; auto. }
  pose proof I as I'. destruct (i_mok _ _ _ _ _ _ _ _ _ _ _ _ I i m Hi ltac:(rewrite Ep; reflexivity)) as (M0 & M1 & M2 & _ & _ & M3).
  split; [eapply i_call; eauto|]. split; [exact M1|]. split; [exact M2|]. split; [exact M3|]. split; [exact M0|].
  intros j Hj. rewrite node_of_mv. rewrite (i_th _ _ _ _ _ _ _ _ _ _ _ _ I j Hj). destruct (p_pc st j) as [|? ? ?|m' x' r'] eqn:Ej; try discriminate. intros X. injection X as X.
  assert (i = j) by (apply (i_own _ _ _ _ _ _ _ _ _ _ _ _ I i j (m_u m) Hi Hj); [rewrite Ep; reflexivity|rewrite Ej; cbn [owner]; congruence]). congruence.
Qed.
(** The flags _active_node_was_moved (an array of twice the number of nodes) are never written out of bounds. *)
Lemma append_length mu0 ms : forall a0, (length (fst (fst (fold_left (app_step mu0) ms a0))) <= length (fst (fst a0)) + length ms)%nat.
Proof.
  induction ms as [|m ms IH]; intros [[l od] oi]; cbn [fold_left length]; [lia|]. specialize (IH (app_step mu0 (l, od, oi) m)). unfold app_step in IH at 2. unfold app_step in *. cbn [fst] in *.
  destruct (mu0 && negb (oi (m_u m)) || opt_eqb (Some (m_from m)) (od (m_u m))); cbn [fst] in *; rewrite ?app_length in IH; cbn [length] in IH; lia.
Qed.
Theorem C73_flags_in_bounds : forall ud mu act s x s1 d1 mvd y q1 s2 q2 ms ap od oi, started H s -> pk s = k -> incl act (nodes H) -> NoDup act ->
  pphase H k L PB o fixed mu rebal thr ud true act s x s1 d1 mvd y -> rebalancer H L o fixed s1 q1 s2 q2 ms -> append_moves mu ms (old y) (oin y) = (ap, od, oi) ->
  (length (act ++ ap) <= 2 * length (nodes H))%nat.
Proof.
  intros ud mu act s x s1 d1 mvd y q1 s2 q2 ms ap od oi ST K An Nd PH RB AP.
  destruct (pg_main _ _ _ _ _ _ _ (pphase_good H k L PB o fixed mu rebal thr Wn Wt ud) _ _ _ _ _ _ _ _ PH (conj ST K) An (fun _ => Nd)) as (R1 & _).
  destruct (rebalancer_good H k L o fixed Wn _ _ _ _ _ RB R1) as (_ & _ & Nm & Fr & _). pose proof (append_length mu ms ([], old y, oin y)) as X. unfold append_moves in AP. rewrite AP in X. cbn [fst length] in X.
  pose proof (NoDup_incl_length Nd An). assert (Y : (length (map m_u ms) <= length (nodes H))%nat).
  { apply NoDup_incl_length; [exact Nm|]. intros v Hv. apply in_map_iff in Hv. destruct Hv as (m & <- & Hm). apply (Fr m Hm). }
  rewrite map_length in Y. rewrite app_length. lia.
Qed.
End Props.

(** *** Two executions of the code as it is
    Nodes 0 and 1 (fixed) in block 0, nodes 2 and 3 in block 1; three hyperedges {0,2} of weight 2, {2,3} of weight 3, {1,3} of weight c;
    node 3 has weight 2.  Tasks 0 and 1 move nodes 0 and 2 at the same time, each sees that its move was bad, and reverts it. *)
Definition pH (c : Z) : hypergraph := {| nodes := seq 0 4; edges := seq 0 5; pins := fun e => nth e [[0;2];[0;2];[0;2];[2;3];[1;3]]%nat [];
  inc := fun v => nth v [[0;1;2];[4];[0;1;2;3];[3;4]]%nat []; nw := fun v => nth v [1;1;1;2] 0; ew := fun e => nth e [2;2;2;3;c] 0 |}.
Definition pP : partition := fun v => nth v [Some 0;Some 0;Some 1;Some 1]%nat None.
Definition pfixed (v : nat) : bool := Nat.eqb v 1.
Definition pS (c : Z) : phg := state_of (pH c) 2 pP.
Lemma p_started c : started (pH c) (pS c).
Proof.
  apply state_of_started.
  - apply wf_hgb_sound. vm_compute. reflexivity.
  - intros v b. unfold pP. do 4 (destruct v as [|v]; [cbn; intros E; inversion E; lia|]). cbn. destruct v; discriminate.
  - intros v Hv. cbn in Hv. unfold pP. repeat (destruct Hv as [<-|Hv]; [cbn; eexists; split; [reflexivity|lia]|]). destruct Hv.
Qed.

Definition advs (i j : nat) : list plabel := repeat (PAdv i) j.
Definition nomops (H : hypergraph) (su : sync_update) : list mop := [].
Definition pL (b : nat) : Z := nth b [2;3] 0.
(** Tasks 0 and 1 both execute their move: on the first hyperedge task 0 comes first, on the others task 1. *)
Definition race (cap0 cap1 : Z) (g0 g2 : Z) : list plabel :=
  [PTake 0 (mkMv 0 0 1 cap1) g0; PTake 1 (mkMv 2 1 0 cap0) g2; PGo 0; PGo 1] ++ advs 0 2 ++ advs 1 2 ++ advs 0 5 ++ advs 1 20 ++ advs 0 10.
Definition revert : list plabel := [PGo 0] ++ advs 0 18 ++ [PGo 1] ++ advs 1 23.
Definition no_cache : cache := mkCache (fun _ => 0) (fun _ _ => 0).
Definition lim10 (b : nat) : Z := 10.
Definition all_new (od : nat -> option nat) : nact := fresh od (fun _ => false).
(** While nodes 0 and 2 have wrongly changed sides, node 3 follows node 2; then the moves of 0 and 2 are reverted. *)
Definition worse_run : option pst :=
  fold_opt (pstepU (pH 1) 2 lim10 lim10 Okm1 pfixed false true 100 false 3 nomops) (pinit (pS 1) no_cache (seq 0 4) (all_new pP))
    (race 10 10 (-6) (-3) ++ advs 0 1 ++ advs 1 1 ++ [PTake 2 (mkMv 3 1 0 10) (-4); PGo 2] ++ advs 2 13 ++ revert ++ [PSkip 1]).
Definition obs (r : option pst) := match r with Some st => (p_todo st, map (p_pc st) (seq 0 3), sumZ (gain_of Okm1) (log (p_c st)), map (part (sh (p_c st))) (seq 0 4)) | None => ([], [], 0, []) end.
Lemma worse_obs : obs worse_run = ([], [TIdle; TIdle; TIdle], 2, [Some 0; Some 0; Some 1; Some 0]%nat).
Proof. vm_compute. reflexivity. Qed.
Lemma phase_of H L o fx u ls c s act x r st : r = fold_opt (pstepU H 2 L L o fx false true 100 u 3 nomops) (pinit s c act x) ls -> r = Some st -> p_todo st = [] -> map (p_pc st) (seq 0 3) = [TIdle; TIdle; TIdle] ->
  pphase H 2 L L o fx false true 100 true u act s x (sh (p_c st)) (sumZ (gain_of o) (log (p_c st))) (p_fl st) (p_an st).
Proof.
  intros -> E V1 V2. exists 3%nat, nomops, c, ls, st. split; [exact E|]. split; [split; [exact V1|]|].
  - intros i Hi. cbn [seq map] in V2. injection V2 as A B C. do 3 (destruct i as [|i]; [assumption|]). lia.
  - repeat (split; [reflexivity|]). reflexivity.
Qed.
Lemma worse_split : exists ls st, Some st = fold_opt (pstepU (pH 1) 2 lim10 lim10 Okm1 pfixed false true 100 false 3 nomops) (pinit (pS 1) no_cache (seq 0 4) (all_new pP)) ls /\
  obs (Some st) = ([], [TIdle; TIdle; TIdle], 2, [Some 0; Some 0; Some 1; Some 0]%nat).
Proof.
  assert (X : exists ls r, r = fold_opt (pstepU (pH 1) 2 lim10 lim10 Okm1 pfixed false true 100 false 3 nomops) (pinit (pS 1) no_cache (seq 0 4) (all_new pP)) ls /\ obs r = ([], [TIdle; TIdle; TIdle], 2, [Some 0; Some 0; Some 1; Some 0]%nat)).
  { eexists. exists worse_run. split; [unfold worse_run; reflexivity|exact worse_obs]. }
  destruct X as (ls & r & A & B). destruct r as [st|]; [|discriminate]. exists ls, st. split; assumption.
Qed.
Lemma worse_phase : exists s1 mvd y, pphase (pH 1) 2 lim10 lim10 Okm1 pfixed false true 100 true false (seq 0 4) (pS 1) (all_new pP) s1 2 mvd y /\
  map (part s1) (seq 0 4) = [Some 0; Some 0; Some 1; Some 0]%nat.
Proof.
  destruct worse_split as (ls & st & R & V). unfold obs in V.
  assert (V1 := f_equal (fun x => fst (fst (fst x))) V). assert (V2 := f_equal (fun x => snd (fst (fst x))) V). assert (V3 := f_equal (fun x => snd (fst x)) V). assert (V4 := f_equal snd V). cbn [fst snd] in V1, V2, V3, V4. clear V.
  exists (sh (p_c st)), (p_fl st), (p_an st). split; [|exact V4]. rewrite <- V3. eapply phase_of; [exact R|reflexivity|exact V1|exact V2].
Qed.
Lemma obj_pH c P Q : map P (seq 0 4) = map Q (seq 0 4) -> obj_spec Okm1 (pH c) P = obj_spec Okm1 (pH c) Q.
Proof.
  intros E. rewrite !AfterburnerThms.obj_sum. apply sumZ_ext. intros e He. apply AfterburnerThms.edge_ext. intros v Hv.
  assert (Hn : In v (nodes (pH c))) by (apply (wf_pins_nodes (pH c) (proj1 (p_started c)) e v He Hv)). cbn in Hn. cbn in E. injection E as A B C D. destruct Hn as [<-|[<-|[<-|[<-|[]]]]]; assumption.
Qed.
(** Parallel label propagation can return a worse partition (cpp:120: ASSERT(delta >= 0) fails; the comment at cpp:207-210 knows). *)
Theorem C73_refuted_quality : exists H k L fixed s s' q' i', started H s /\ pk s = k /\
  (forall b, (b < k)%nat -> total_weight H <= L b) /\
  par_lp H k L L Okm1 fixed false true 100 Z (fun _ => 0) Z.ltb (fun _ _ => true) false 0 true (distinct_rollback H Okm1) 1 [] s (obj_spec Okm1 H (part s)) 0 s' q' i' false /\
  q' = obj_spec Okm1 H (part s') /\ obj_spec Okm1 H (part s) < obj_spec Okm1 H (part s').
Proof.
  destruct worse_phase as (s1 & mvd & y & PH & V).
  assert (Ob : obj_spec Okm1 (pH 1) (part (pS 1)) + 2 = obj_spec Okm1 (pH 1) (part s1)).
  { rewrite (obj_pH 1 (part s1) (fun v => nth v [Some 0;Some 0;Some 1;Some 0]%nat None)) by (rewrite V; reflexivity). vm_compute. reflexivity. }
  exists (pH 1), 2%nat, lim10, pfixed, (pS 1), s1, (obj_spec Okm1 (pH 1) (part (pS 1)) + 2), 0. split; [apply p_started|]. split; [reflexivity|]. split; [intros b _; vm_compute; congruence|].
  split; [|split; [exact Ob|rewrite <- Ob; lia]]. generalize (obj_spec Okm1 (pH 1) (part (pS 1))). clear Ob. intros q.
  unfold par_lp. cbn [andb]. unfold refine_lp. exists (seq 0 4), pP. eexists. split; [reflexivity|]. split; [split; [|discriminate]|].
  - change (filter _ _) with (seq 0 4). apply Permutation_refl.
  - split; [eapply L_last; [|eapply R_con; [reflexivity|exact PH|reflexivity]|reflexivity]; discriminate|]. cbn [LP.r_s LP.r_q LP.r_i]. split; [reflexivity|]. split; [reflexivity|]. split; [reflexivity|]. symmetry. apply Z.ltb_ge. lia.
Qed.

Definition go (j : nat) : list (nat * act) := repeat (0%nat, AGo) j.
Definition dobs (st : option pst) (fr : phg -> option rst) (fb : phg -> (nat -> option nat) -> option pst) :=
  match st with
  | None => None
  | Some st => match fr (sh (p_c st)) with
    | None => None
    | Some r => match fb (sh (rc r)) (old (p_an st)) with
      | None => None
      | Some sb => Some ((p_todo st, map (p_pc st) (seq 0 3), map (part (sh (p_c st))) (seq 0 4), p_fl st, Jet.isbal 2 pL false 0 (sh (p_c st)), pk (sh (p_c st))),
                         (pcs r 0, moves_linear r, Jet.isbal 2 pL false 0 (sh (rc r)), old (p_an st) 0)%nat,
                         (p_todo sb, map (p_pc sb) (seq 0 3), map (part (sh (p_c sb))) (seq 0 4), wt (sh (p_c sb)) 0%nat)) end end end.
(** Unconstrained: nodes 0 and 2 have been moved and moved back, node 3 has moved; block 0 is overloaded.
    The rebalancer moves node 0 to block 1; node 3 does not fit there any more, node 1 is fixed.  Then node 0 is rolled back by two tasks. *)
Definition dph (ls : list plabel) : option pst := fold_opt (pstepU (pH 4) 2 pL pL Okm1 pfixed false true 100 true 3 nomops) (pinit (pS 4) no_cache (seq 0 4) (all_new pP)) ls.
Definition drb (lr : list (nat * act)) (s : phg) : option rst := rrun (pH 4) 2 1 nomops pL (rinit (pH 4) pL s no_cache pfixed (fun _ => true)) lr.
Definition drl (lb : list plabel) (s : phg) (od : nat -> option nat) : option pst :=
  prun (pH 4) 3 nomops (gain_of Okm1) (rskip od) (rmay od) (fun _ _ _ _ => None) (fun _ _ _ _ _ _ y => y) (pinit s no_cache [0;2;3;0]%nat (fresh od (fun _ => false))) lb.
Lemma dbl_split : exists ls lr lb, dobs (dph ls) (drb lr) (drl lb) =
  Some (([], [TIdle; TIdle; TIdle], [Some 0; Some 0; Some 1; Some 0], [0; 2; 3], false, 2), (REnd, [mkMv 0 0 1 3], false, Some 0), ([], [TIdle; TIdle; TIdle], [Some 0; Some 0; Some 1; Some 1], 3%Z))%nat.
Proof.
  exists (race MAXW MAXW (-6) (-3) ++ advs 0 1 ++ advs 1 1 ++ revert ++ [PTake 2 (mkMv 3 1 0 MAXW) (-1); PGo 2] ++ advs 2 13 ++ [PSkip 1]),
    (go 1 ++ [(0%nat, ATry 0); (0%nat, AKeep 1)] ++ go 3 ++ go 19 ++ go 1 ++ go 1 ++ [(0%nat, AEmpty)]),
    ([PTake 0 (mkMv 0 1 0 MAXW) 0; PTake 1 (mkMv 0 1 0 MAXW) 0; PTake 2 (mkMv 3 0 1 MAXW) 0; PSkip 2; PGo 0; PGo 1; PGo 2] ++ advs 0 18 ++ advs 1 18 ++ advs 2 13).
  vm_compute. reflexivity.
Qed.
Lemma dbl_phases : exists st r sb, 
  pphase (pH 4) 2 pL pL Okm1 pfixed false true 100 true true (seq 0 4) (pS 4) (all_new pP) (sh (p_c st)) (sumZ (gain_of Okm1) (log (p_c st))) [0;2;3]%nat (p_an st) /\
  Jet.isbal 2 pL false 0 (sh (p_c st)) = false /\
  rebalancer (pH 4) pL Okm1 pfixed (sh (p_c st)) (obj_spec Okm1 (pH 4) (part (pS 4)) + sumZ (gain_of Okm1) (log (p_c st))) (sh (rc r)) (obj_spec Okm1 (pH 4) (part (pS 4)) + sumZ (gain_of Okm1) (log (p_c st)) + gain_sum (gain_of Okm1) r) [mkMv 0 0 1 3] /\
  Jet.isbal 2 pL false 0 (sh (rc r)) = false /\ old (p_an st) 0%nat = Some 0%nat /\
  prollb (pH 4) Okm1 [0;2;3;0]%nat (old (p_an st)) (sh (rc r)) (sh (p_c sb)) /\
  map (part (sh (p_c sb))) (seq 0 4) = [Some 0; Some 0; Some 1; Some 1]%nat /\ wt (sh (p_c sb)) 0%nat = 3.
Proof.
  destruct dbl_split as (ls & lr & lb & V). unfold dobs in V.
  destruct (dph ls) as [st|] eqn:E1; [|discriminate]. destruct (drb lr (sh (p_c st))) as [r|] eqn:E2; [|discriminate]. destruct (drl lb (sh (rc r)) (old (p_an st))) as [sb|] eqn:E3; [|discriminate].
  exists st, r, sb. injection V as V1 V2 V3 V4 V5 V6 V7 V8 V9 V10 K V11 V12 V13 V14 V15 V16 V17 V18 V19 V20 V21 V22 V23.
  split; [exists 3%nat, nomops, no_cache, ls, st; split; [exact E1|split; [split; [exact V1|]|]]|].
  { intros i Hi. do 3 (destruct i as [|i]; [assumption|]). lia. }
  { split; [reflexivity|]. split; [reflexivity|]. rewrite V9. split; reflexivity. }
  split; [exact V10|]. split.
  { exists 1%nat, nomops, no_cache, r. split; [exists (fun _ => true), lr; rewrite K; exact E2|]. split; [intros i Hi; destruct i; [exact V11|lia]|]. split; [reflexivity|]. split; [reflexivity|]. symmetry. exact V12. }
  split; [exact V13|]. split; [exact V14|]. split.
  { exists 3%nat, nomops, no_cache, lb, sb. split; [exact E3|]. split; [split; [exact V15|]|reflexivity]. intros i Hi. do 3 (destruct i as [|i]; [assumption|]). lia. }
  split; [|exact V23]. cbn [seq map]. rewrite V19, V20, V21, V22. reflexivity.
Qed.
(** A node that a task has moved and moved back keeps its flag (is_moved is set before the revert, cpp:71-88); when the
    rebalancer then moves it out of its old block, it is appended once more (cpp:267-280) and two tasks roll it back at the same time
    (cpp:299-305).  Starting from a consistent balanced partition, the result has wrong block weights. *)
Theorem C73_refuted_rollback : exists H k L fixed s s' q' i', started H s /\ pk s = k /\ (forall v, In v (nodes H) -> 0 <= nw H v) /\ total_weight H <= MAXW /\
  acceptable H k L false 0 (part s) /\
  par_lp H k L L Okm1 fixed true true 100 Z (fun _ => 0) Z.ltb (fun _ _ => true) false 0 true (prollb H Okm1) 1 [] s (obj_spec Okm1 H (part s)) 0 s' q' i' false /\
  partWeight s' 0 <> block_weight H (part s') 0 /\ ~ started H s'.
Proof.
  destruct dbl_phases as (st & r & sb & PH & B1 & RB & B2 & Od & RL & Pt & W).
  assert (Bad : wt (sh (p_c sb)) 0%nat <> block_weight (pH 4) (part (sh (p_c sb))) 0).
  { rewrite W. rewrite (block_weight_ext (pH 4) _ (fun v => nth v [Some 0; Some 0; Some 1; Some 1]%nat None)); [vm_compute; discriminate|].
    cbn [seq map] in Pt. injection Pt as P0 P1 P2 P3. intros v Hv. cbn in Hv. destruct Hv as [<-|[<-|[<-|[<-|[]]]]]; assumption. }
  exists (pH 4), 2%nat, pL, pfixed, (pS 4), (sh (p_c sb)), (obj_spec Okm1 (pH 4) (part (pS 4))), 0.
  split; [apply p_started|]. split; [reflexivity|]. split; [|split; [vm_compute; discriminate|split; [|split; [|split]]]].
  - intros v Hv. cbn in Hv. repeat (destruct Hv as [<-|Hv]; [vm_compute; discriminate|]). destruct Hv.
  - apply isbalP_spec. vm_compute. reflexivity.
  - generalize dependent (obj_spec Okm1 (pH 4) (part (pS 4))). intros q RB.
    unfold par_lp. cbn [andb isnil negb]. unfold refine_lp. exists (seq 0 4), pP. eexists. split; [reflexivity|]. split; [split; [change (filter _ _) with (seq 0 4); apply Permutation_refl|]|].
    + intros _ v Hv. reflexivity.
    + split; [eapply L_last with (b := true); [discriminate| |reflexivity]|].
      * eapply R_roll with (mvd := [0;2;3]%nat); [reflexivity|exact PH|exact B1|exact RB| | |].
        -- unfold append_moves. cbn [fold_left app_step]. cbn [app_step m_u m_from andb orb]. rewrite Od. cbn [opt_eqb Nat.eqb app]. reflexivity.
        -- unfold keep_new. rewrite B2, !andb_false_r. cbn [r_s r_i]. reflexivity.
        -- exact RL.
      * cbn [LP.r_s LP.r_q LP.r_i]. split; [reflexivity|]. split; [reflexivity|]. split; [reflexivity|]. symmetry. apply Z.ltb_irrefl.
  - exact Bad.
  - intros (_ & C & HC). apply Bad. apply (c_wt _ _ C). destruct (HC 0%nat ltac:(left; reflexivity)) as (b & _ & Hb). lia.
Qed.
