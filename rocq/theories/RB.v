(** RB.v - recursive bipartitioning (mt-kahypar/partition/recursive_bipartitioning.cpp:180-375).

    The bipartitions are chosen by the multilevel partitioner, which is not modelled here: [rb] allows every complete
    bipartition that respects the fixed vertices.  All schedules of the two recursive tasks are covered: the extraction of a
    block reads states of the shared partition at arbitrary points of the execution of the sibling task, and the final moves
    of both tasks interleave at the granularity of Conc.v.
    Simplifications: community ids, contexts (weight limits, epsilon) and timers are left out. *)
From Verif Require Import Base Spec SpecLemmas WfCheck PHG PHGProofs Objective GainCache GainCacheProofs Conc ConcProofs ConcMore ConcRun ConcProgress
  PropsA Rollback RollbackProofs Scan Revert Construct EdgeRemoval Restore RestoreProofs RestoreExamples Extract.

(** ** Policies: bipartitioning_policy.h:40-66 (steiner_tree is replaced by km1 in :407-413) *)
Inductive policy := PCut | PKm1 | PSoed | PSteiner.
Definition useCutNetSplitting (p : policy) : bool := match p with PCut => false | PKm1 => true | PSoed => true | PSteiner => true end.
Definition nonCutEdgeMultiplier (p : policy) : Z := match p with PCut => 1 | PKm1 => 1 | PSoed => 2 | PSteiner => 1 end.
Definition usesAdaptiveWeight (p : policy) : bool := negb (nonCutEdgeMultiplier p =? 1).       (* :218-220 *)

(** adaptWeightsOfNonCutEdges, :222-238.  The factors 2.0 and 0.5 and the products are exact in double precision; converting
    a product outside the int32 range is undefined behaviour ([None]). *)
Definition int32 (x : Z) : bool := (- 2 ^ 31 <=? x) && (x <? 2 ^ 31).
Definition adapt1 (p : policy) (revert : bool) (w : Z) : Z := if revert then Z.quot w (nonCutEdgeMultiplier p) else w * nonCutEdgeMultiplier p.
Definition adaptWeights (p : policy) (H : hypergraph) (ac : nat -> bool) (revert : bool) : option hypergraph :=
  if usesAdaptiveWeight p then
    if forallb (fun e => ac e || int32 (adapt1 p revert (ew H e))) (edges H) then
      Some (mkHG (nodes H) (edges H) (pins H) (inc H) (nw H) (fun e => if ac e then ew H e else adapt1 p revert (ew H e)))
    else None
  else Some H.

(** Block arithmetic: :267-268, :292-294 *)
Definition kl (k : nat) : nat := (k / 2 + k mod 2)%nat.
Definition kr (k : nat) : nat := (k / 2)%nat.
(** The recursive calls (block, number of blocks) of :294-318; the range of the call is [block, block + number). *)
Definition tasks (k : nat) : list (nat * nat) :=
  if (2 <=? kl k)%nat && (2 <=? kr k)%nat then [(0%nat, kl k); (kl k, kr k)]
  else if (2 <=? kl k)%nat then [(0%nat, kl k)] else [].

(** setupFixedVerticesForBipartitioning, :179-196 *)
Definition side_of_fixed (k f : nat) : nat := if (f <? kl k)%nat then 0%nat else 1%nat.
(** setupFixedVerticesForRecursion, :198-216, in terms of the ids of the extracted hypergraph. *)
Definition child_fix (H : hypergraph) (fix_ : nat -> option nat) (mp : nat -> option nat) (k0 k1 : nat) (i : nat) : option nat :=
  match find (fun v => match mp v with Some j => Nat.eqb j i | None => false end) (nodes H) with
  | Some v => match fix_ v with Some f => if (k0 <=? f)%nat && (f <? k1)%nat then Some (f - k0)%nat else None | None => None end
  | None => None
  end.
(** Apply bipartition, :269-279 *)
Definition apply_bip (k : nat) (bip : partition) (v : nat) : nat := match bip v with Some O => 0%nat | _ => kl k end.
(** already_cut, :282-287 *)
Definition next_ac (p : policy) (s : phg) (ac : nat -> bool) (e : nat) : bool := if usesAdaptiveWeight p then ac e || (1 <? conn s e) else ac e.
(** Apply k-way partition to the input hypergraph, :354-365: the calls changeNodePartNoSync(hn, block, to, true). *)
Definition child_moves (H : hypergraph) (P : partition) (b : nat) (mp : nat -> option nat) (Q : partition) : list mv :=
  flat_map (fun v => if in_block P b v then
      match mp v with
      | Some i => match Q i with Some q => if Nat.eqb q 0 then [] else [mkMv v b (b + q) MAXW] | None => [] end
      | None => []
      end else []) (nodes H).

Definition no_mops (H : hypergraph) (su : sync_update) : list mop := [].
(** A task extracts before it starts its own moves; with [strict], no move is in progress while it reads. *)
Definition before_own (strict : bool) (H : hypergraph) (n : nat) (s : phg) (c : cache) (b : nat) (l : list label) : Prop :=
  (forall i m, In (Begin i m) l -> m_from m <> b) /\ (strict = true -> forall st, crun H n no_mops (cinit s c) l = Some st -> quiescent n st).

(** recursive_bipartitioning :245-320 and recursively_bipartition_block :323-374.  [rb strict p k H fix ac s cost]: called on
    hypergraph [H] with [k] blocks, fixed vertices [fix] and already cut hyperedges [ac] it may produce the partition [s];
    [cost] is the sum of the objective values of all bipartitions computed on the way. *)
Inductive rb (strict : bool) (p : policy) : nat -> hypergraph -> (nat -> option nat) -> (nat -> bool) -> phg -> Z -> Prop :=
| rb_empty k H fix_ ac : nodes H = [] -> rb strict p k H fix_ ac (phg_init k) 0
| rb_step k H fix_ ac Hb H' bip order chunks eorder s1 n c l st
    (o : nat * nat -> rd -> phg) (ks : nat * nat -> ksched) (m1 m2 : nat * nat -> nat -> nat) (stable : bool)
    (X : nat * nat -> hypergraph) (mp : nat * nat -> nat -> option nat) (so : nat * nat -> phg) (cost : nat * nat -> Z) :
    adaptWeights p H ac false = Some Hb ->
    complete Hb bip 2 ->
    (forall v f, In v (nodes Hb) -> fix_ v = Some f -> bip v = Some (side_of_fixed k f)) ->
    adaptWeights p Hb ac true = Some H' ->
    Permutation order (nodes H') -> Permutation (concat chunks) (nodes H') -> Permutation eorder (edges H') ->
    phg_run H' (phg_init k) (map (fun v => OSetOnly v (apply_bip k bip v)) order ++ [OInit chunks eorder]) = Some s1 ->
    (forall t, In t (tasks k) -> observes H' n no_mops s1 c l (o t) (before_own strict H' n s1 c (fst t))) ->
    (forall t, In t (tasks k) ->
       ksched_ok (length (es H' (fst t) (useCutNetSplitting p) (o t))) (edge_vector H' (fst t) (useCutNetSplitting p) (o t)) (ks t) /\
       extract H' (fst t) (useCutNetSplitting p) (o t) stable (ks t) (m1 t) (m2 t) = Some (X t, mp t)) ->
    (forall t, In t (tasks k) ->
       rb strict p (snd t) (X t) (child_fix H' fix_ (mp t) (fst t) (fst t + snd t))
          (extracted_ac H' (fst t) (useCutNetSplitting p) (o t) (next_ac p s1 ac)) (so t) (cost t)) ->
    crun H' n no_mops (cinit s1 c) l = Some st -> quiescent n st ->
    Permutation (begins l) (flat_map (fun t => child_moves H' (part s1) (fst t) (mp t) (part (so t))) (tasks k)) ->
    rb strict p k H fix_ ac (sh st) (cut Hb bip + sumZ cost (tasks k)).

(** ** Applying moves of distinct nodes concurrently *)
Lemma moves_applied H s n mops c l st ms :
  started H s -> (forall v, In v (nodes H) -> 0 <= nw H v) -> (forall m, In m ms -> total_weight H <= m_max m) ->
  crun H n mops (cinit s c) l = Some st -> quiescent n st -> Permutation (begins l) ms -> NoDup (map m_u ms) ->
  started H (sh st) /\ pk (sh st) = pk s /\ (forall m, In m ms -> part (sh st) (m_u m) = Some (m_to m)) /\
  (forall v, ~ In v (map m_u ms) -> part (sh st) v = part s v).
Proof.
  intros ST NWP HT E Q Pm ND. pose proof ST as (WF & C & HC).
  assert (U : Forall (unlimited H) l).
  { apply Forall_forall. intros a Ha. destruct a as [i m|i]; [|exact I]. cbn [unlimited]. apply HT. eapply Permutation_in; [exact Pm|]. apply in_flat_map. exists (Begin i m). split; [exact Ha|left; reflexivity]. }
  pose proof (unlimited_accepted H n mops s c l st ST NWP U E) as AC.
  pose proof (Permutation_trans (Permutation_sym Pm) (quiescent_returned H n mops s c l st E Q)) as PR.
  assert (ND' : NoDup (map m_u (map fst (rep st)))) by (eapply Permutation_NoDup; [apply Permutation_map; exact PR|exact ND]).
  destruct (replay_distinct (part s) (rep st) AC ND') as [R1 R2].
  destruct (conc_quiescent H n mops WF s c l st C HC E Q) as (K & C' & HC' & R).
  split; [split; [exact WF|split; [exact C'|rewrite K; exact HC']]|]. split; [exact K|]. split.
  - intros m Hm. rewrite R. apply R1. eapply Permutation_in; [exact PR|exact Hm].
  - intros v Hv. rewrite R. apply R2. intros Y. apply Hv. eapply Permutation_in; [apply Permutation_map, Permutation_sym, PR|exact Y].
Qed.

(** ** Block arithmetic *)
Lemma kl_kr k : (kl k + kr k = k)%nat.
Proof. unfold kl, kr. pose proof (Nat.div_mod k 2 ltac:(lia)). lia. Qed.
Lemma kl_bounds k : (2 <= k)%nat -> (1 <= kr k /\ kr k <= kl k /\ kl k < k /\ kl k <= kr k + 1)%nat.
Proof. intros Hk. pose proof (kl_kr k). unfold kl, kr in *. pose proof (Nat.mod_upper_bound k 2 ltac:(lia)). assert (1 <= k / 2)%nat by (apply (Nat.div_le_lower_bound k 2 1); lia). lia. Qed.
Lemma in_tasks k t : (2 <= k)%nat -> In t (tasks k) -> (2 <= snd t)%nat /\ (snd t < k)%nat /\ ((fst t = 0%nat /\ snd t = kl k) \/ (fst t = kl k /\ snd t = kr k)).
Proof.
  intros Hk. pose proof (kl_bounds k Hk). pose proof (kl_kr k). unfold tasks. destruct (Nat.leb_spec 2 (kl k)), (Nat.leb_spec 2 (kr k)); cbn [andb]; intros Ht;
    repeat (destruct Ht as [<-|Ht]); try destruct Ht; cbn [fst snd]; lia.
Qed.
Lemma tasks_nodup k : (2 <= k)%nat -> NoDup (map fst (tasks k)).
Proof.
  intros Hk. pose proof (kl_bounds k Hk). unfold tasks. destruct (Nat.leb_spec 2 (kl k)), (Nat.leb_spec 2 (kr k)); cbn [andb map fst]; try (repeat constructor; cbn; tauto).
  constructor; [|repeat constructor; cbn; tauto]. cbn [In]. lia.
Qed.

(** ** Block ids are always in range *)
Definition in_range (s : phg) : Prop := forall v q, part s v = Some q -> (q < pk s)%nat.
Lemma dec_ids s e b s' x : decrementPinCountOfBlock s e b = Some (s', x) -> part s' = part s /\ pk s' = pk s.
Proof. unfold decrementPinCountOfBlock. destruct (_ && _); [|discriminate]. intros [= <- <-]. destruct (_ =? 0); cbn; auto. Qed.
Lemma inc_ids s e b s' x : incrementPinCountOfBlock s e b = Some (s', x) -> part s' = part s /\ pk s' = pk s.
Proof. unfold incrementPinCountOfBlock. destruct (_ <? _)%nat; [|discriminate]. intros [= <- <-]. destruct (_ =? 1); cbn; auto. Qed.
Lemma range_step H n mops st a st' : cstep H n mops st a = Some st' ->
  in_range (sh st) /\ (forall i m, mv_of (th st i) = Some m -> (m_to m < pk (sh st))%nat) ->
  pk (sh st') = pk (sh st) /\ in_range (sh st') /\ (forall i m, mv_of (th st' i) = Some m -> (m_to m < pk (sh st'))%nat).
Proof.
  intros Hs [R T].
  assert (TH : forall i t, (forall m, mv_of t = Some m -> (m_to m < pk (sh st))%nat) -> forall j m, mv_of (upd (th st) i t j) = Some m -> (m_to m < pk (sh st))%nat).
  { intros i t Ht j m. unfold upd. destruct (Nat.eqb j i); [apply Ht|apply T]. }
  destruct a as [i m|i]; cbn [cstep] in Hs.
  - destruct (th st i) eqn:Et; try discriminate. destruct (_ && _) eqn:G; [|discriminate]. injection Hs as <-. cbn [sh th set_th set_sh add_wt pk]. split; [reflexivity|]. split; [exact R|].
    repeat (apply andb_true_iff in G; destruct G as [G ?]). apply TH. intros m' [= <-]. apply Nat.ltb_lt. assumption.
  - destruct (i <? n)%nat; [|discriminate]. unfold adv in Hs. pose proof (T i) as Ti.
    destruct (th st i) as [|m a|m|m rem|m e rem|m e rem fa|m rem su|m rem ops] eqn:Et; try discriminate.
    all: specialize (Ti m eq_refl); assert (Tm : forall m', Some m = Some m' -> (m_to m' < pk (sh st))%nat) by (intros m' [= <-]; exact Ti).
    + destruct (a <=? m_max m); injection Hs as <-; cbn [sh th set_th set_sh add_wt set_part pk].
      * split; [reflexivity|]. split; [|apply TH; exact Tm]. intros v q. cbn [part set_part pk]. unfold upd. destruct (Nat.eqb v (m_u m)); [intros [= <-]; exact Ti|apply R].
      * split; [reflexivity|]. split; [exact R|]. apply TH. discriminate.
    + injection Hs as <-. cbn [sh th set_th set_sh add_wt pk]. split; [reflexivity|]. split; [exact R|]. apply TH. exact Tm.
    + destruct rem as [|e rem].
      * injection Hs as <-. cbn [sh th set_th]. split; [reflexivity|]. split; [exact R|]. apply TH. discriminate.
      * destruct (lk st e); [discriminate|]. injection Hs as <-. cbn [sh th set_th set_lk]. split; [reflexivity|]. split; [exact R|]. apply TH. exact Tm.
    + destruct (decrementPinCountOfBlock _ _ _) as [[s' fa]|] eqn:E; [|discriminate]. injection Hs as <-. cbn [sh th set_th set_sh]. destruct (dec_ids _ _ _ _ _ E) as [Ep Ek].
      split; [exact Ek|]. split; [intros v q; rewrite Ep, Ek; apply R|]. rewrite Ek. apply TH. exact Tm.
    + destruct (incrementPinCountOfBlock _ _ _) as [[s' ta]|] eqn:E; [|discriminate]. injection Hs as <-. cbn [sh th set_th set_sh]. destruct (inc_ids _ _ _ _ _ E) as [Ep Ek].
      split; [exact Ek|]. split; [intros v q; rewrite Ep, Ek; apply R|]. rewrite Ek. apply TH. exact Tm.
    + injection Hs as <-. cbn [sh th set_th set_lk]. split; [reflexivity|]. split; [exact R|]. apply TH. exact Tm.
    + destruct ops as [|op ops].
      * injection Hs as <-. cbn [sh th set_th]. split; [reflexivity|]. split; [exact R|]. apply TH. exact Tm.
      * destruct (exec_mop _ _ _ _) as [c' ops']. injection Hs as <-. cbn [sh th set_th]. split; [reflexivity|]. split; [exact R|]. apply TH. exact Tm.
Qed.
Lemma range_run H n mops l : forall st st', crun H n mops st l = Some st' ->
  in_range (sh st) /\ (forall i m, mv_of (th st i) = Some m -> (m_to m < pk (sh st))%nat) -> pk (sh st') = pk (sh st) /\ in_range (sh st').
Proof.
  unfold crun. induction l as [|a l IH]; intros st st' E R; cbn in E; [injection E as <-; split; [reflexivity|apply R]|].
  destruct (cstep H n mops st a) as [st1|] eqn:E1; [|discriminate]. destruct (range_step H n mops st a st1 E1 R) as (K & R1). destruct (IH st1 st' E R1) as [K2 R2]. split; [congruence|exact R2].
Qed.
Lemma range_setonly H k f l : forall s s', fold_opt (phg_step H) s (map (fun v => OSetOnly v (f v)) l) = Some s' -> in_range s -> pk s = k -> in_range s' /\ pk s' = k.
Proof.
  induction l as [|v l IH]; intros s s' E R K; cbn [map fold_opt phg_step] in E; [injection E as <-; auto|]. unfold setOnlyNodePart in E.
  destruct (Nat.ltb_spec (f v) (pk s)) as [L|L]; [|discriminate]. destruct (part s v); [discriminate|]. apply (IH _ _ E); [|exact K]. intros w q. cbn [part pk]. unfold upd. destruct (Nat.eqb w v); [intros [= <-]; exact L|apply R].
Qed.
Lemma initBW_ids H ch : forall s s', initializeBlockWeights H s ch = Some s' -> part s' = part s /\ pk s' = pk s.
Proof.
  unfold initializeBlockWeights. induction ch as [|a ch IH]; intros s s' E; cbn in E; [injection E as <-; auto|]. unfold applyChunk in E. destruct (forallb _ _); [|discriminate]. apply IH in E. exact E.
Qed.
Lemma writePos_ids cnt e L : forall s, part (fold_left (writePositive cnt e) L s) = part s /\ pk (fold_left (writePositive cnt e) L s) = pk s.
Proof.
  induction L as [|a L IH]; intros s; cbn [fold_left]; [auto|]. destruct (IH (writePositive cnt e s a)) as [-> ->]. unfold writePositive. destruct (0 <? cnt a); cbn; auto.
Qed.
Lemma initPC_ids H eo : forall s s', initializePinCountInPart H s eo = Some s' -> part s' = part s /\ pk s' = pk s.
Proof.
  unfold initializePinCountInPart. induction eo as [|a eo IH]; intros s s' E; cbn in E; [injection E as <-; auto|]. unfold initEdge in E at 1. destruct (forallb _ _); [|discriminate]. apply IH in E.
  destruct (writePos_ids (localPinCount H (part s) a) a (seq 0 (pk s)) s) as [Q1 Q2]. rewrite Q1, Q2 in E. exact E.
Qed.
Lemma rb_range strict p k H fix_ ac s cost : rb strict p k H fix_ ac s cost -> pk s = k /\ in_range s.
Proof.
  intros R. destruct R as [k H fix_ ac Hn|k H fix_ ac Hb H' bip order chunks eorder s1 n c l st o ks m1 m2 stable X mp so cost A1 HBc HF A2 Po Pc Pe E1 OBS EXT SUBR RUN QUI BEG].
  - split; [reflexivity|]. intros v q. discriminate.
  - unfold phg_run in E1. rewrite fold_opt_app in E1. destruct (fold_opt _ _ (map _ order)) as [s0|] eqn:E0; [|discriminate]. cbn [fold_opt phg_step] in E1.
    destruct (range_setonly H' k _ order _ _ E0) as [R0 K0]; [intros v q; discriminate|reflexivity|]. unfold initializePartition in E1.
    destruct (initializeBlockWeights H' s0 chunks) as [s2|] eqn:E2; [|discriminate]. destruct (initBW_ids _ _ _ _ E2) as [Q1 Q2].
    destruct (initializePinCountInPart H' s2 eorder) as [s3|] eqn:E3; [|discriminate]. injection E1 as <-. destruct (initPC_ids _ _ _ _ E3) as [Q3 Q4].
    assert (R3 : in_range s3) by (intros v q; rewrite Q3, Q1, Q4, Q2; apply R0).
    destruct (range_run H' n no_mops l (cinit s3 c) st RUN) as [K R]; [split; [exact R3|intros i m; discriminate]|]. split; [|exact R]. cbn [sh cinit] in K. congruence.
Qed.

(** ** Weight adaption is undone exactly *)
Lemma adapt_structure p H ac r H' : adaptWeights p H ac r = Some H' -> nodes H' = nodes H /\ edges H' = edges H /\ pins H' = pins H /\ inc H' = inc H /\ nw H' = nw H.
Proof. unfold adaptWeights. destruct (usesAdaptiveWeight p); [|intros [= <-]; auto]. destruct (forallb _ _); [|discriminate]. intros [= <-]. cbn. auto. Qed.
Lemma adapt_weight p H ac r H' e : adaptWeights p H ac r = Some H' -> ew H' e = if ac e then ew H e else adapt1 p r (ew H e).
Proof.
  unfold adaptWeights. destruct (usesAdaptiveWeight p) eqn:U.
  - destruct (forallb _ _); [|discriminate]. intros [= <-]. reflexivity.
  - intros [= <-]. destruct (ac e); [reflexivity|]. unfold adapt1. unfold usesAdaptiveWeight in U. destruct (Z.eqb_spec (nonCutEdgeMultiplier p) 1) as [->|]; [|discriminate U]. rewrite Z.quot_1_r, Z.mul_1_r. destruct r; reflexivity.
Qed.
Lemma adapt_revert p H ac Hb H' e : adaptWeights p H ac false = Some Hb -> adaptWeights p Hb ac true = Some H' -> ew H' e = ew H e.
Proof.
  intros E1 E2. rewrite (adapt_weight _ _ _ _ _ e E2), (adapt_weight _ _ _ _ _ e E1). destruct (ac e); [reflexivity|]. unfold adapt1. apply Z.quot_mul. destruct p; discriminate.
Qed.
Lemma wf_same H H' : nodes H' = nodes H -> edges H' = edges H -> pins H' = pins H -> inc H' = inc H -> wf_hg H -> wf_hg H'.
Proof. destruct H, H'; cbn. intros -> -> -> ->. intros []. constructor; cbn in *; assumption. Qed.
Lemma consistent_hg H H' s : nodes H' = nodes H -> edges H' = edges H -> pins H' = pins H -> nw H' = nw H -> consistent H s -> consistent H' s.
Proof. destruct H, H'; cbn. intros -> -> -> ->. intros []. constructor; cbn in *; assumption. Qed.

(** ** One level of the recursion *)
Lemma child_moves_spec H P b mp Q m : In m (child_moves H P b mp Q) <->
  exists v i q, In v (nodes H) /\ P v = Some b /\ mp v = Some i /\ Q i = Some q /\ q <> 0%nat /\ m = mkMv v b (b + q) MAXW.
Proof.
  unfold child_moves. rewrite in_flat_map. split.
  - intros (v & Hv & Hm). destruct (in_block P b v) eqn:Eb; [|destruct Hm]. apply in_block_true in Eb. destruct (mp v) as [i|] eqn:Ei; [|destruct Hm]. destruct (Q i) as [q|] eqn:Eq; [|destruct Hm].
    destruct (Nat.eqb_spec q 0) as [|Ne]; [destruct Hm|]. destruct Hm as [<-|[]]. exists v, i, q. auto 8.
  - intros (v & i & q & Hv & Hb & Hi & Hq & Ne & ->). exists v. split; [exact Hv|]. rewrite (proj2 (in_block_true P b v) Hb), Hi, Hq. destruct (Nat.eqb_spec q 0); [contradiction|left; reflexivity].
Qed.
Lemma child_moves_nodup H P b mp Q : NoDup (nodes H) -> NoDup (map m_u (child_moves H P b mp Q)).
Proof.
  unfold child_moves. induction (nodes H) as [|v l IH]; intros N; [constructor|]. apply NoDup_cons_iff in N. destruct N as [Nv N]. cbn [flat_map]. rewrite map_app.
  assert (Z0 : forall x, In x (map m_u (flat_map (fun v => if in_block P b v then match mp v with Some i => match Q i with Some q => if Nat.eqb q 0 then [] else [mkMv v b (b + q) MAXW] | None => [] end | None => [] end else []) l)) -> In x l).
  { intros x Hx. apply in_map_iff in Hx. destruct Hx as (m & <- & Hm). apply in_flat_map in Hm. destruct Hm as (y & Hy & Hm).
    destruct (in_block P b y); [|destruct Hm]. destruct (mp y); [|destruct Hm]. destruct (Q n); [|destruct Hm]. destruct (Nat.eqb _ _); [destruct Hm|]. destruct Hm as [<-|[]]. exact Hy. }
  destruct (in_block P b v); [|apply IH, N]. destruct (mp v) as [i|]; [|apply IH, N]. destruct (Q i) as [q|]; [|apply IH, N]. destruct (Nat.eqb q 0); [apply IH, N|].
  cbn [map app m_u]. constructor; [intros Y; apply Nv, Z0, Y|apply IH, N].
Qed.

Lemma after_bip H k bip order chunks eorder s1 : wf_hg H -> (2 <= k)%nat ->
  Permutation order (nodes H) -> Permutation (concat chunks) (nodes H) -> Permutation eorder (edges H) ->
  phg_run H (phg_init k) (map (fun v => OSetOnly v (apply_bip k bip v)) order ++ [OInit chunks eorder]) = Some s1 ->
  started H s1 /\ pk s1 = k /\ forall v, In v (nodes H) -> part s1 v = Some (apply_bip k bip v).
Proof.
  intros WF Hk Po Pc Pe E. unfold phg_run in E. rewrite fold_opt_app in E.
  assert (F : forall v, (apply_bip k bip v < k)%nat) by (intros v; pose proof (kl_bounds k Hk); unfold apply_bip; destruct (bip v) as [[|]|]; lia).
  destruct (setonly_run H k (apply_bip k bip) F order (phg_init k) eq_refl) as (s & E1 & K & W & P & C & Pt).
  { eapply Permutation_NoDup; [apply Permutation_sym, Po|apply WF]. }
  { reflexivity. }
  rewrite E1 in E. cbn [fold_opt phg_step] in E.
  assert (Pn : forall v, In v (nodes H) -> part s v = Some (apply_bip k bip v)).
  { intros v Hv. rewrite Pt. rewrite (proj2 (mem_In v order)) by (eapply Permutation_in; [apply Permutation_sym, Po|exact Hv]). reflexivity. }
  assert (HC : complete H (part s) (pk s)) by (intros v Hv; rewrite (Pn v Hv), K; eauto).
  assert (O : only_ids s).
  { constructor; [|rewrite W; reflexivity|rewrite P; reflexivity|rewrite C; reflexivity]. intros v b. rewrite Pt, K. destruct (mem v order); [intros [= <-]; apply F|discriminate]. }
  destruct (init_ok H WF s chunks eorder O HC Pc Pe) as (s' & E' & C' & K' & P'). rewrite E' in E. injection E as <-.
  split; [split; [exact WF|split; [exact C'|rewrite K', P'; exact HC]]|]. split; [congruence|]. rewrite P'. exact Pn.
Qed.

Section Level.
Set Default Proof Using "All".
Variables (strict : bool) (p : policy) (k : nat) (H : hypergraph) (fix_ : nat -> option nat) (bip : partition) (s1 : phg) (n : nat) (c : cache) (l : list label) (st : cst).
Variables (o : nat * nat -> rd -> phg) (ks : nat * nat -> ksched) (m1 m2 : nat * nat -> nat -> nat) (stable : bool).
Variables (X : nat * nat -> hypergraph) (mp : nat * nat -> nat -> option nat) (so : nat * nat -> phg).
Hypotheses (Hk : (2 <= k)%nat) (S1 : started H s1) (K1 : pk s1 = k).
Hypotheses (NWP : forall v, In v (nodes H) -> 0 <= nw H v) (TW : total_weight H <= MAXW).
Hypothesis BIP : complete H bip 2.
Hypothesis P1 : forall v, In v (nodes H) -> part s1 v = Some (apply_bip k bip v).
Hypothesis FIX : forall v f, In v (nodes H) -> fix_ v = Some f -> (f < k)%nat /\ bip v = Some (side_of_fixed k f).
Hypothesis OBS : forall t, In t (tasks k) -> observes H n no_mops s1 c l (o t) (before_own strict H n s1 c (fst t)).
Hypothesis EXT : forall t, In t (tasks k) ->
       ksched_ok (length (es H (fst t) (useCutNetSplitting p) (o t))) (edge_vector H (fst t) (useCutNetSplitting p) (o t)) (ks t) /\
       extract H (fst t) (useCutNetSplitting p) (o t) stable (ks t) (m1 t) (m2 t) = Some (X t, mp t).
Hypothesis RUN : crun H n no_mops (cinit s1 c) l = Some st.
Hypothesis QUI : quiescent n st.
Hypothesis BEG : Permutation (begins l) (flat_map (fun t => child_moves H (part s1) (fst t) (mp t) (part (so t))) (tasks k)).
(** What is known about the recursive calls: child block ids are in range. *)
Hypothesis SUB : forall t i q, In t (tasks k) -> part (so t) i = Some q -> (q < snd t)%nat.

Lemma task_lt t : In t (tasks k) -> (fst t + snd t <= k)%nat /\ (fst t < pk s1)%nat.
Proof. intros Ht. destruct (in_tasks k t Hk Ht) as (A & B & C). pose proof (kl_kr k). pose proof (kl_bounds k Hk). lia. Qed.
Lemma task_eq t t' : In t (tasks k) -> In t' (tasks k) -> fst t = fst t' -> t = t'.
Proof.
  intros Ht Ht' E. destruct (in_tasks k t Hk Ht) as (_ & _ & A). destruct (in_tasks k t' Hk Ht') as (_ & _ & B). pose proof (kl_bounds k Hk).
  destruct t as [a b], t' as [a' b']; cbn [fst snd] in *. subst a'. f_equal. lia.
Qed.

Lemma begins_avoid t i m : In t (tasks k) -> In (Begin i m) l -> m_from m <> fst t -> m_to m <> fst t.
Proof.
  intros Ht Hb Hf. assert (Y : In m (begins l)) by (apply in_flat_map; exists (Begin i m); split; [exact Hb|left; reflexivity]).
  apply (Permutation_in _ BEG) in Y. apply in_flat_map in Y. destruct Y as (t' & Ht' & Y). apply child_moves_spec in Y. destruct Y as (v & j & q & Hv & Hp & Hj & Hq & Ne & ->). cbn [m_from m_to] in *.
  pose proof (SUB t' j q Ht' Hq). destruct (in_tasks k t Hk Ht) as (_ & _ & A). destruct (in_tasks k t' Hk Ht') as (_ & _ & B). pose proof (kl_kr k). lia.
Qed.

Lemma obs_faithful t : In t (tasks k) -> faithful H (part s1) (fst t) (o t) /\ (strict = true -> faithful_cut H (part s1) (fst t) (o t)).
Proof.
  intros Ht.
  assert (AV : forall l1 l2, l = l1 ++ l2 -> (forall i m, In (Begin i m) l1 -> m_from m <> fst t) -> Forall (avoids (fst t)) l1).
  { intros l1 l2 El Q. apply Forall_forall. intros a Ha. destruct a as [i m|i]; [|exact I]. cbn. split; [apply (Q i m Ha)|]. apply (begins_avoid t i m Ht); [rewrite El; apply in_or_app; left; exact Ha|apply (Q i m Ha)]. }
  split.
  - apply (faithful_moving H n no_mops s1 c l (o t) (fst t) S1); [apply task_lt, Ht|]. intros r. destruct (OBS t Ht r) as (l1 & l2 & st1 & El & [A _] & E & Eo). exists l1, l2, st1. split; [exact El|]. split; [apply (AV l1 l2 El A)|auto].
  - intros St. apply (faithful_quiet H n no_mops s1 c l (o t) (fst t) S1); [apply task_lt, Ht|]. intros r. destruct (OBS t Ht r) as (l1 & l2 & st1 & El & [A B] & E & Eo). exists l1, l2, st1. split; [exact El|]. split; [split; [apply (AV l1 l2 El A)|apply B, St]|auto].
Qed.

Lemma child_nodes t : In t (tasks k) -> nodes (X t) = seq 0 (length (block_nodes H (part s1) (fst t))) /\
  (forall v i, mp t v = Some i <-> nth_error (block_nodes H (part s1) (fst t)) i = Some v) /\
  (forall i v, nth_error (block_nodes H (part s1) (fst t)) i = Some v -> nw (X t) i = nw H v) /\ wf_hg (X t) /\ (forall e, In e (edges (X t)) -> pins (X t) e <> []).
Proof. intros Ht. destruct (EXT t Ht) as [OK E]. apply (extract_nodes H (part s1) (fst t) (useCutNetSplitting p) (o t) (proj1 S1) (proj1 (obs_faithful t Ht)) stable (ks t) (m1 t) (m2 t) (X t) (mp t) OK E). Qed.

Lemma child_map t v : In t (tasks k) -> In v (nodes H) -> part s1 v = Some (fst t) -> exists i, mp t v = Some i /\ In i (nodes (X t)).
Proof.
  intros Ht Hv Hp. destruct (child_nodes t Ht) as (A & B & _). assert (Y : In v (block_nodes H (part s1) (fst t))) by (apply in_block_nodes; auto).
  apply In_nth_error in Y. destruct Y as [i Ei]. exists i. split; [apply B, Ei|]. rewrite A. apply in_seq. assert (i < length (block_nodes H (part s1) (fst t)))%nat by (apply nth_error_Some; congruence). lia.
Qed.
Lemma child_map_inv t v i : In t (tasks k) -> mp t v = Some i -> In v (nodes H) /\ part s1 v = Some (fst t) /\ In i (nodes (X t)).
Proof.
  intros Ht E. destruct (child_nodes t Ht) as (A & B & _). apply B in E. pose proof (nth_error_In _ _ E) as Y. apply in_block_nodes in Y. destruct Y. split; [assumption|]. split; [assumption|].
  rewrite A. apply in_seq. assert (i < length (block_nodes H (part s1) (fst t)))%nat by (apply nth_error_Some; congruence). lia.
Qed.
Lemma child_node_of t i : In t (tasks k) -> In i (nodes (X t)) -> exists v, mp t v = Some i /\ In v (nodes H) /\ part s1 v = Some (fst t) /\ nw (X t) i = nw H v.
Proof.
  intros Ht Hi. destruct (child_nodes t Ht) as (A & B & C & _). rewrite A in Hi. apply in_seq in Hi. destruct (nth_error (block_nodes H (part s1) (fst t)) i) as [v|] eqn:E.
  - exists v. split; [apply B, E|]. pose proof (nth_error_In _ _ E) as Y. apply in_block_nodes in Y. destruct Y. auto.
  - apply nth_error_None in E. lia.
Qed.

Lemma child_weights t : In t (tasks k) -> (forall i, In i (nodes (X t)) -> 0 <= nw (X t) i) /\ total_weight (X t) <= MAXW.
Proof.
  intros Ht. destruct (child_nodes t Ht) as (A & B & C & _). split.
  - intros i Hi. destruct (child_node_of t i Ht Hi) as (v & _ & Hv & _ & ->). apply NWP, Hv.
  - unfold total_weight. rewrite A.
    assert (Y : forall (f : nat -> Z) L, (forall i v, nth_error L i = Some v -> f i = nw H v) -> forall a, (forall i, f (a + i)%nat = f (a + i)%nat) -> sumZ f (seq 0 (length L)) = sumZ (nw H) L).
    { intros f L. revert f. induction L as [|x L IH]; intros f Hf a _; [reflexivity|]. cbn [length seq sumZ]. rewrite (Hf 0%nat x eq_refl). f_equal. rewrite <- seq_shift, sumZ_map.
      apply (IH (fun i => f (S i))) with (a := 0%nat); [intros i v E; apply (Hf (S i)); exact E|reflexivity]. }
    rewrite (Y (nw (X t)) (block_nodes H (part s1) (fst t)) C 0%nat (fun _ => eq_refl)). unfold block_nodes. rewrite sumZ_filter.
    apply Z.le_trans with (total_weight H); [|exact TW]. unfold total_weight. apply sumZ_le. intros v Hv. specialize (NWP v Hv). destruct (in_block _ _ _); lia.
Qed.

(** The fixed vertices of the recursive calls are in range, refer to the same nodes, and every lookup in the mapping for
    them is valid. *)
Lemma fixed_mapped t v f : In t (tasks k) -> In v (nodes H) -> fix_ v = Some f -> (fst t <= f < fst t + snd t)%nat -> exists i, mp t v = Some i.
Proof.
  intros Ht Hv Hf R. destruct (FIX v f Hv Hf) as [Hfk Hb]. destruct (child_map t v Ht Hv) as (i & E & _); [|exists i; exact E].
  rewrite (P1 v Hv). unfold apply_bip. rewrite Hb. unfold side_of_fixed. f_equal. destruct (in_tasks k t Hk Ht) as (_ & _ & [[A B]|[A B]]); destruct (Nat.ltb_spec f (kl k)); lia.
Qed.
Lemma child_fix_spec t v i : In t (tasks k) -> mp t v = Some i ->
  child_fix H fix_ (mp t) (fst t) (fst t + snd t) i = match fix_ v with Some f => Some (f - fst t)%nat | None => None end /\
  forall f, fix_ v = Some f -> (fst t <= f < fst t + snd t)%nat.
Proof.
  intros Ht E. destruct (child_map_inv t v i Ht E) as (Hv & Hp & _).
  assert (R : forall f, fix_ v = Some f -> (fst t <= f < fst t + snd t)%nat).
  { intros f Hf. destruct (FIX v f Hv Hf) as [Hfk Hb]. rewrite (P1 v Hv) in Hp. injection Hp as Hp. unfold apply_bip in Hp. rewrite Hb in Hp. unfold side_of_fixed in Hp. pose proof (kl_bounds k Hk). pose proof (kl_kr k).
    destruct (in_tasks k t Hk Ht) as (_ & _ & [[A B]|[A B]]); destruct (Nat.ltb_spec f (kl k)); lia. }
  split; [|exact R]. unfold child_fix.
  assert (Fd : find (fun v0 => match mp t v0 with Some j => Nat.eqb j i | None => false end) (nodes H) = Some v).
  { destruct (find _ (nodes H)) as [w|] eqn:Ef.
    - apply find_some in Ef. destruct Ef as [Hw Ew]. destruct (mp t w) as [j|] eqn:Ej; [|discriminate]. apply Nat.eqb_eq in Ew. subst j. destruct (child_nodes t Ht) as (_ & B & _). apply B in Ej. apply B in E. congruence.
    - exfalso. pose proof (find_none _ _ Ef v Hv) as Y. cbv beta in Y. rewrite E, Nat.eqb_refl in Y. discriminate. }
  rewrite Fd. destruct (fix_ v) as [f|]; [|reflexivity]. specialize (R f eq_refl). destruct (Nat.leb_spec (fst t) f); [|lia]. destruct (Nat.ltb_spec f (fst t + snd t)); [reflexivity|lia].
Qed.

(** The partition after the moves of all tasks. *)
Hypothesis SUBC : forall t, In t (tasks k) -> complete (X t) (part (so t)) (snd t).
Lemma level_result : started H (sh st) /\ pk (sh st) = k /\
  (forall t v i q, In t (tasks k) -> mp t v = Some i -> part (so t) i = Some q -> part (sh st) v = Some (fst t + q)%nat) /\
  (forall v, In v (nodes H) -> (forall t, In t (tasks k) -> part s1 v <> Some (fst t)) -> part (sh st) v = part s1 v).
Proof.
  set (ms := flat_map (fun t => child_moves H (part s1) (fst t) (mp t) (part (so t))) (tasks k)) in *.
  assert (ND : NoDup (map m_u ms)).
  { unfold ms. assert (Y : forall L, incl L (tasks k) -> NoDup (map fst L) -> NoDup (map m_u (flat_map (fun t => child_moves H (part s1) (fst t) (mp t) (part (so t))) L))).
    { induction L as [|t L IH]; intros HL N; [constructor|]. cbn [map] in N. apply NoDup_cons_iff in N. destruct N as [Nt N]. cbn [flat_map]. rewrite map_app. apply NoDup_app_.
      - apply child_moves_nodup, (proj1 S1).
      - apply IH; [intros x Hx; apply HL; right; exact Hx|exact N].
      - intros u Hu Hu'. apply in_map_iff in Hu. destruct Hu as (m & <- & Hm). apply child_moves_spec in Hm. destruct Hm as (v & i1 & q1 & _ & Hp & _ & _ & _ & ->). cbn [m_u] in Hu'.
        apply in_map_iff in Hu'. destruct Hu' as (m & Eu & Hm). apply in_flat_map in Hm. destruct Hm as (t' & Ht' & Hm). apply child_moves_spec in Hm. destruct Hm as (v' & i2 & q2 & _ & Hp' & _ & _ & _ & ->).
        cbn [m_u] in Eu. subst v'. apply Nt. rewrite Hp in Hp'. injection Hp' as ->. apply in_map, Ht'. }
    apply Y; [apply incl_refl|apply tasks_nodup, Hk]. }
  destruct (moves_applied H s1 n no_mops c l st ms S1 NWP) as (R1 & R2 & R3 & R4).
  - intros m Hm. unfold ms in Hm. apply in_flat_map in Hm. destruct Hm as (t & _ & Hm). apply child_moves_spec in Hm. destruct Hm as (v & i & q & _ & _ & _ & _ & _ & ->). exact TW.
  - exact RUN.
  - exact QUI.
  - exact BEG.
  - exact ND.
  - split; [exact R1|]. split; [congruence|]. split.
    + intros t v i q Ht Ei Eq. destruct (child_map_inv t v i Ht Ei) as (Hv & Hp & _). destruct (Nat.eq_dec q 0) as [->|Ne].
      * rewrite R4; [rewrite Hp, Nat.add_0_r; reflexivity|]. intros Y. apply in_map_iff in Y. destruct Y as (m & Eu & Hm). unfold ms in Hm. apply in_flat_map in Hm. destruct Hm as (t' & Ht' & Hm).
        apply child_moves_spec in Hm. destruct Hm as (v' & i' & q' & _ & Hp' & Ei' & Eq' & Nq' & ->). cbn [m_u] in Eu. subst v'. assert (t' = t) as -> by (apply task_eq; [assumption|assumption|congruence]). congruence.
      * specialize (R3 (mkMv v (fst t) (fst t + q) MAXW)). cbn [m_u m_to] in R3. apply R3. unfold ms. apply in_flat_map. exists t. split; [exact Ht|]. apply child_moves_spec. exists v, i, q. auto 8.
    + intros v Hv Hnt. apply R4. intros Y. apply in_map_iff in Y. destruct Y as (m & Eu & Hm). unfold ms in Hm. apply in_flat_map in Hm. destruct Hm as (t' & Ht' & Hm).
      apply child_moves_spec in Hm. destruct Hm as (v' & i' & q' & _ & Hp' & _ & _ & _ & ->). cbn [m_u] in Eu. subst v'. apply (Hnt t' Ht' Hp').
Qed.
Unset Default Proof Using.
End Level.

(** ** C24 *)
Theorem C24_recursive_bipartitioning strict p k H fix_ ac s cost : rb strict p k H fix_ ac s cost ->
  (2 <= k)%nat -> wf_hg H -> (forall v, In v (nodes H) -> 0 <= nw H v) -> total_weight H <= MAXW ->
  (forall v f, In v (nodes H) -> fix_ v = Some f -> (f < k)%nat) ->
  pk s = k /\ complete H (part s) k /\ (forall b, (b < k)%nat -> partWeight s b = block_weight H (part s) b) /\
  (forall v f, In v (nodes H) -> fix_ v = Some f -> part s v = Some f) /\
  started H s.
Proof.
  intros R. induction R as [k H fix_ ac Hn|k H fix_ ac Hb H' bip order chunks eorder s1 n c l st o ks m1 m2 stable X mp so cost A1 HBc HF A2 Po Pc Pe E1 OBS EXT SUBR IH RUN QUI BEG]; intros Hk WF NWP TW HX.
  - assert (S : started H (phg_init k)).
    { split; [exact WF|]. split; [apply only_ids_consistent; [apply only_ids_init|reflexivity]|]. intros v Hv. rewrite Hn in Hv. destruct Hv. }
    split; [reflexivity|]. split; [apply S|]. split; [intros b Hb; apply (c_wt H _ (proj1 (proj2 S)) b Hb)|]. split; [|exact S]. intros v f Hv. rewrite Hn in Hv. destruct Hv.
  - destruct (adapt_structure _ _ _ _ _ A1) as (N1 & N2 & N3 & N4 & N5). destruct (adapt_structure _ _ _ _ _ A2) as (M1 & M2 & M3 & M4 & M5).
    rewrite N1 in *. rewrite N2, N3, N4, N5 in *.
    assert (WF' : wf_hg H') by (apply (wf_same H H'); assumption).
    assert (TW' : total_weight H' <= MAXW) by (unfold total_weight in *; rewrite M1, M5; exact TW).
    destruct (after_bip H' k bip order chunks eorder s1 WF' Hk Po Pc Pe E1) as (S1 & K1 & P1).
    assert (BIP : complete H' bip 2) by (intros v Hv; apply HBc; rewrite N1, <- M1; exact Hv).
    assert (FIX : forall v f, In v (nodes H') -> fix_ v = Some f -> (f < k)%nat /\ bip v = Some (side_of_fixed k f)).
    { intros v f Hv Hf. rewrite M1 in Hv. split; [apply (HX v f Hv Hf)|apply (HF v f Hv Hf)]. }
    assert (NWP' : forall v, In v (nodes H') -> 0 <= nw H' v) by (rewrite M1, M5; exact NWP).
    assert (SUB : forall t i q, In t (tasks k) -> part (so t) i = Some q -> (q < snd t)%nat).
    { intros t i q Ht. destruct (rb_range _ _ _ _ _ _ _ _ (SUBR t Ht)) as [Kt Rt]. rewrite <- Kt. apply Rt. }
    pose proof (child_nodes strict p k H' fix_ bip s1 n c l st o ks m1 m2 stable X mp so Hk S1 K1 NWP' TW' BIP P1 FIX OBS EXT RUN QUI BEG SUB) as CN.
    pose proof (child_fix_spec strict p k H' fix_ bip s1 n c l st o ks m1 m2 stable X mp so Hk S1 K1 NWP' TW' BIP P1 FIX OBS EXT RUN QUI BEG SUB) as CF.
    pose proof (child_node_of strict p k H' fix_ bip s1 n c l st o ks m1 m2 stable X mp so Hk S1 K1 NWP' TW' BIP P1 FIX OBS EXT RUN QUI BEG SUB) as CO.
    pose proof (child_weights strict p k H' fix_ bip s1 n c l st o ks m1 m2 stable X mp so Hk S1 K1 NWP' TW' BIP P1 FIX OBS EXT RUN QUI BEG SUB) as CW.
    pose proof (child_map strict p k H' fix_ bip s1 n c l st o ks m1 m2 stable X mp so Hk S1 K1 NWP' TW' BIP P1 FIX OBS EXT RUN QUI BEG SUB) as CM.
    assert (IH' : forall t, In t (tasks k) -> complete (X t) (part (so t)) (snd t) /\
       (forall i f, In i (nodes (X t)) -> child_fix H' fix_ (mp t) (fst t) (fst t + snd t) i = Some f -> part (so t) i = Some f)).
    { intros t Ht. destruct (IH t Ht) as (_ & I2 & _ & I4 & _).
      - apply (in_tasks k t Hk Ht).
      - apply (CN t Ht).
      - apply (CW t Ht).
      - apply (CW t Ht).
      - intros i f Hi Hf. destruct (CO t i Ht Hi) as (v & Em & Hv & Hp & _). destruct (CF t v i Ht Em) as [CFa CFb]. rewrite CFa in Hf. destruct (fix_ v) as [g|]; [|discriminate]. injection Hf as <-. specialize (CFb g eq_refl). lia.
      - auto. }
    destruct (level_result strict p k H' fix_ bip s1 n c l st o ks m1 m2 stable X mp so Hk S1 K1 NWP' TW' BIP P1 FIX OBS EXT RUN QUI BEG SUB (fun t Ht => proj1 (IH' t Ht))) as (R1 & R2 & R3 & R4).
    assert (S : started H (sh st)).
    { destruct R1 as (_ & C & HC). split; [exact WF|]. split; [apply (consistent_hg H' H); congruence|]. intros v Hv. apply HC. rewrite M1. exact Hv. }
    split; [exact R2|]. split; [rewrite <- R2; apply S|]. split; [intros b Hlt; apply (c_wt H _ (proj1 (proj2 S)) b); lia|]. split; [|exact S].
    intros v f Hv Hf. rewrite <- M1 in Hv. destruct (FIX v f Hv Hf) as [Hfk Hbf].
    destruct (in_dec Nat.eq_dec (apply_bip k bip v) (map fst (tasks k))) as [Hin|Hnin].
    + apply in_map_iff in Hin. destruct Hin as (t & Et & Ht). destruct (CM t v Ht Hv) as (i & Em & Hi); [rewrite (P1 v Hv); congruence|].
      destruct (CF t v i Ht Em) as [CFa CFb]. rewrite Hf in CFa. specialize (CFb f Hf). rewrite (R3 t v i (f - fst t)%nat Ht Em); [f_equal; lia|]. apply (IH' t Ht); [exact Hi|exact CFa].
    + rewrite (R4 v Hv); [|intros t Ht Q; apply Hnin; rewrite (P1 v Hv) in Q; injection Q as ->; apply in_map, Ht]. rewrite (P1 v Hv). f_equal.
      unfold apply_bip in *. rewrite Hbf in *. unfold side_of_fixed in *. pose proof (kl_bounds k Hk). pose proof (kl_kr k). unfold tasks in Hnin.
      destruct (Nat.ltb_spec f (kl k)); destruct (Nat.leb_spec 2 (kl k)), (Nat.leb_spec 2 (kr k)); cbn [andb map fst] in Hnin; cbn [In] in Hnin; try lia; try tauto.
Qed.
