(** Restore.v - preprocessing and postprocessing of a partitioning call: removal of isolated nodes, single-pin and large hyperedges
    before, their restoration in the partition after partitioning
    (partition/preprocessing/sparsification/degree_zero_hn_remover.h, large_he_remover.h; partitioner.cpp:149-165, 325-372, 407-434;
    partitioned_hypergraph.h:345-348, 452-490). *)
From Verif Require Import Base Spec SpecLemmas PHG PHGProofs Objective GainCache Conc ConcProofs ConcRun Sorting Construct EdgeRemoval.

(** ** The model *)
(** PartitionedHypergraph::restoreLargeEdge without the hypergraph part, :456-476.  [chunks]: the pins processed by each thread
    (thread-local counters), then aggregation.  A pin without block would index the counters with -1: None. *)
Definition threadCount (P : partition) (b : nat) (chunk : list nat) : Z := sumZ (fun v => if in_block P b v then 1 else 0) chunk.
Definition restoreLargeEdgeP (s : phg) (e : nat) (chunks : list (list nat)) : option phg :=
  if forallb (assigned (part s) (pk s)) (concat chunks) then
    Some (fold_left (fun t b => let c := sumZ (threadCount (part s) b) chunks in
                                if 0 <? c then addBlock (setPinCountInPart t e b c) e b else t) (seq 0 (pk s)) s)
  else None.
(** restoreSinglePinEdge, :482-490 *)
Definition restoreSinglePinEdgeP (H : hypergraph) (s : phg) (e : nat) : option phg :=
  match pins H e with
  | v :: _ => match part s v with
              | Some b => if (b <? pk s)%nat then Some (addBlock (setPinCountInPart s e b 1) e b) else None
              | None => None
              end
  | [] => None
  end.
(** setNodePart as compiled in a release build (:572-584): the assertion that the node is unassigned is absent. *)
Definition setNodePartR (H : hypergraph) (s : phg) (u p : nat) : option phg :=
  if (p <? pk s)%nat then incrementEdges (mkPHG (pk s) (upd (part s) u (Some p)) (upd (wt s) p (wt s p + nw H u)) (pc s) (cs s)) (inc H u) p else None.

Section Pipeline.
Variables (B : hypergraph) (k : nat) (L : nat -> Z).   (* input hypergraph, number of blocks, max_part_weights *)
Variables (fixed : nat -> bool) (limit thr : nat).      (* isFixed, contraction_limit, largeHyperedgeThreshold() *)

(** removeDegreeZeroHypernodes, degree_zero_hn_remover.h:55-71 *)
Fixpoint rdz (cur : nat) (s : hstate) (removed : list nat) (l : list nat) : option (hstate * list nat) :=
  match l with
  | [] => Some (s, removed)
  | u :: r => if (cur - length removed <=? limit)%nat then Some (s, removed)
              else if (hs_sz s u =? 0)%nat && negb (fixed u) then
                match removeNode s u with Some s' => rdz cur s' (removed ++ [u]) r | None => None end
              else rdz cur s removed r
  end.
Definition removeDegreeZero (s : hstate) : option (hstate * list nat) := rdz (length (nodes B) - hs_rn s) s [] (nodes (view B s)).
(** removeSinglePinAndLargeHyperedges, large_he_remover.h:54-72; [ord e]: order in which removeLargeEdge processes the pins.
    Result: state, large hyperedges (most recently removed first, :69), single-pin hyperedges. *)
Variable ord : nat -> list nat.
Fixpoint rle (s : hstate) (large single : list nat) (l : list nat) : option (hstate * list nat * list nat) :=
  match l with
  | [] => Some (s, large, single)
  | e :: r => if (length (pins B e) =? 1)%nat then
                match removeEdge s e (pins B e) with Some s' => rle s' large (single ++ [e]) r | None => None end
              else if (thr <? length (pins B e))%nat then
                match removeEdge s e (ord e) with Some s' => rle s' (e :: large) single r | None => None end
              else rle s large single r
  end.
Definition removeLarge (s : hstate) : option (hstate * list nat * list nat) := rle s [] [] (edges (view B s)).
(** sanitize, partitioner.cpp:149-165 *)
Definition sanitize (s : hstate) : option (hstate * list nat * list nat * list nat) :=
  match removeDegreeZero s with
  | Some (s1, Zs) => match removeLarge s1 with Some (s2, lg, sg) => Some (s2, Zs, lg, sg) | None => None end
  | None => None
  end.

(** restoreSinglePinAndLargeHyperedges, large_he_remover.h:90-98; [ord2 e] order of the pins in StaticHypergraph::restoreLargeEdge,
    [chunks e] distribution of the pins to threads in PartitionedHypergraph::restoreLargeEdge *)
Variables (ord2 : nat -> list nat) (chunks : nat -> list (list nat)).
Definition restore_large (x : hstate * phg) (e : nat) : option (hstate * phg) :=
  match restoreEdge B (fst x) e (ord2 e) with
  | Some h => match restoreLargeEdgeP (snd x) e (chunks e) with Some s => Some (h, s) | None => None end
  | None => None
  end.
Definition restore_single (x : hstate * phg) (e : nat) : option (hstate * phg) :=
  match restoreEdge B (fst x) e (pins B e) with
  | Some h => match restoreSinglePinEdgeP B (snd x) e with Some s => Some (h, s) | None => None end
  | None => None
  end.
Definition restoreHyperedges (x : hstate * phg) (lg sg : list nat) : option (hstate * phg) :=
  match fold_opt restore_large x lg with Some y => fold_opt restore_single y sg | None => None end.

(** restoreDegreeZeroHypernodes, degree_zero_hn_remover.h:74-103.  Comparator of :76-80 (a strict total order) *)
Definition heavier (a b : nat) : bool := (nw B b <? nw B a) || ((nw B a =? nw B b) && (b <? a)%nat).
Fixpoint insert_by (a : nat) (l : list nat) : list nat :=
  match l with [] => [a] | b :: r => if heavier a b then a :: l else b :: insert_by a r end.
Definition sort_removed (l : list nat) : list nat := fold_right insert_by [] l.
(** distance_to_max, :82-84 *)
Definition distance_to_max (s : phg) (b : nat) : Z := wt s b - L b.
(** the while loop of :96-100: [a] is at position i, [r] are the blocks behind it *)
Fixpoint bubble (d : nat -> Z) (a : nat) (r : list nat) : list nat :=
  match r with b :: r' => if d b <? d a then b :: bubble d a r' else a :: r | [] => [a] end.
Fixpoint pack (h : hstate) (s : phg) (blocks : list nat) (l : list nat) : option (hstate * phg) :=
  match l with
  | [] => Some (h, s)
  | hn :: r =>
    match blocks with
    | to :: rest =>
      match restoreNode h hn with
      | Some h' => match setNodePartR (view B h') s hn to with
                   | Some s' => pack h' s' (bubble (distance_to_max s') to rest) r
                   | None => None
                   end
      | None => None
      end
    | [] => None
    end
  end.
(** [blocks]: what std::sort leaves (:85-90), a permutation of 0..k-1 sorted by distance_to_max; ties in any order *)
Definition blocks_sorted (s : phg) (blocks : list nat) : Prop :=
  Permutation blocks (seq 0 k) /\ StronglySorted (fun a b => distance_to_max s a <= distance_to_max s b) blocks.
Definition restoreDegreeZero (h : hstate) (s : phg) (blocks : list nat) (removed : list nat) : option (hstate * phg) :=
  pack h s blocks (sort_removed removed).

(** Postprocessing, partitioner.cpp:370-371 / :433-434.  The order [blocks] depends on the state (std::sort): [pick]. *)
Variable pick : phg -> list nat.
Definition postprocess (h : hstate) (s : phg) (Zs lg sg : list nat) : option (hstate * phg) :=
  match restoreHyperedges (h, s) lg sg with
  | Some (h', s') => restoreDegreeZero h' s' (pick s') Zs
  | None => None
  end.
(** partition (:312-372): preprocessing, some partitioner that returns partition [alg H1] of the reduced hypergraph, postprocessing. *)
Definition partition_call (h : hstate) (alg : hypergraph -> phg) : option (hstate * phg) :=
  match sanitize h with
  | Some (h1, Zs, lg, sg) => postprocess h1 (alg (view B h1)) Zs lg sg
  | None => None
  end.
(** partitionVCycle (:407-435), Multilevel::partitionVCycle (multilevel.cpp:241-271): every V-cycle replaces the partition by the result
    of multilevel_partitioning on the reduced hypergraph; [s0] is the given partition.  [inr h]: exception (mode other than direct, :428),
    with the hypergraph state left behind. *)
Fixpoint vcycles (n : nat) (H1 : hypergraph) (alg : nat -> hypergraph -> phg -> phg) (s : phg) : phg :=
  match n with O => s | S m => alg n H1 (vcycles m H1 alg s) end.
Definition improve_call (direct : bool) (nv : nat) (h : hstate) (s0 : phg) (alg : nat -> hypergraph -> phg -> phg) : option ((hstate * phg) + hstate) :=
  match sanitize h with
  | Some (h1, Zs, lg, sg) =>
    if direct then match postprocess h1 (vcycles nv (view B h1) alg s0) Zs lg sg with Some x => Some (inl x) | None => None end
    else Some (inr h1)
  | None => None
  end.
End Pipeline.

(** What any partitioning algorithm does with the partition data structure: it fills a fresh one through the API, then moves nodes,
    concurrently or not. *)
Inductive worked (H : hypergraph) (k : nat) : phg -> Prop :=
| w_api ops s : api_run MEmpty ops = Some MLive -> Forall (op_schedule_ok H) ops -> phg_run H (phg_init k) ops = Some s ->
    complete H (part s) k -> worked H k s
| w_conc s n mops c l st : worked H k s -> crun H n mops (cinit s c) l = Some st -> quiescent n st -> worked H k (sh st).

(** ** Untouched hyperedges and nodes stay untouched *)
Definition dormant (s : phg) (e : nat) : Prop := forall b, pc s e b = 0 /\ cs s e b = false.

Lemma inc_frame s e b s' x e' : incrementPinCountOfBlock s e b = Some (s', x) -> e' <> e ->
  pk s' = pk s /\ part s' = part s /\ wt s' = wt s /\ (forall c, pc s' e' c = pc s e' c /\ cs s' e' c = cs s e' c).
Proof.
  unfold incrementPinCountOfBlock. destruct (b <? pk s)%nat; [|discriminate]. intros E N. injection E as <- _.
  assert (Q : Nat.eqb e' e = false) by (apply Nat.eqb_neq; exact N).
  destruct (pc s e b + 1 =? 1); cbn; repeat split; intros; rewrite ?upd2_eq, ?Q; cbn; rewrite ?upd2_eq, ?Q; reflexivity.
Qed.
Lemma dec_frame s e b s' x e' : decrementPinCountOfBlock s e b = Some (s', x) -> e' <> e ->
  pk s' = pk s /\ part s' = part s /\ wt s' = wt s /\ (forall c, pc s' e' c = pc s e' c /\ cs s' e' c = cs s e' c).
Proof.
  unfold decrementPinCountOfBlock. destruct ((b <? pk s)%nat && (0 <? pc s e b)); [|discriminate]. intros E N. injection E as <- _.
  assert (Q : Nat.eqb e' e = false) by (apply Nat.eqb_neq; exact N).
  destruct (pc s e b - 1 =? 0); cbn; repeat split; intros; rewrite ?upd2_eq, ?Q; cbn; rewrite ?upd2_eq, ?Q; reflexivity.
Qed.
Lemma dormant_eq s s' e : (forall c, pc s' e c = pc s e c /\ cs s' e c = cs s e c) -> dormant s e -> dormant s' e.
Proof. intros F D c. destruct (F c) as [A C]. rewrite A, C. apply D. Qed.
Lemma incEdges_frame l : forall s p s' e', incrementEdges s l p = Some s' -> ~ In e' l ->
  part s' = part s /\ (forall c, pc s' e' c = pc s e' c /\ cs s' e' c = cs s e' c).
Proof.
  induction l as [|e l IH]; intros s p s' e' E N; cbn in E; [injection E as <-; auto|].
  destruct (incrementPinCountOfBlock s e p) as [[s1 x]|] eqn:E1; [|discriminate].
  assert (e' <> e) by (intros ->; apply N; left; reflexivity). destruct (inc_frame _ _ _ _ _ e' E1 H) as (_ & P1 & _ & F1).
  destruct (IH s1 p s' e' E) as [P2 F2]; [intros Q; apply N; right; exact Q|]. split; [congruence|].
  intros c. destruct (F1 c), (F2 c). split; congruence.
Qed.
Lemma updEdges_frame H l : forall s f t s' sus e', updateEdges H s l f t = Some (s', sus) -> ~ In e' l ->
  part s' = part s /\ (forall c, pc s' e' c = pc s e' c /\ cs s' e' c = cs s e' c).
Proof.
  induction l as [|e l IH]; intros s f t s' sus e' E N; cbn in E; [injection E as <- _; auto|].
  unfold updatePinCountOfHyperedge in E. destruct (decrementPinCountOfBlock s e f) as [[s1 x]|] eqn:E1; [|discriminate].
  destruct (incrementPinCountOfBlock s1 e t) as [[s2 y]|] eqn:E2; [|discriminate].
  destruct (updateEdges H s2 l f t) as [[s3 z]|] eqn:E3; [|discriminate]. injection E as <- _.
  assert (Ne : e' <> e) by (intros ->; apply N; left; reflexivity). destruct (dec_frame _ _ _ _ _ e' E1 Ne) as (_ & P1 & _ & F1).
  destruct (inc_frame _ _ _ _ _ e' E2 Ne) as (_ & P2 & _ & F2).
  destruct (IH s2 f t s3 z e' E3) as [P3 F3]; [intros Q; apply N; right; exact Q|]. split; [congruence|].
  intros c. destruct (F1 c), (F2 c), (F3 c). split; congruence.
Qed.
Lemma writePos_frame cnt e l : forall s e', e' <> e ->
  let s' := fold_left (writePositive cnt e) l s in part s' = part s /\ (forall c, pc s' e' c = pc s e' c /\ cs s' e' c = cs s e' c).
Proof.
  induction l as [|b l IH]; intros s e' N; cbn [fold_left]; [cbn; auto|].
  destruct (IH (writePositive cnt e s b) e' N) as [P F].
  assert (Q : Nat.eqb e' e = false) by (apply Nat.eqb_neq; exact N). cbv zeta. cbv zeta in P, F. rewrite P. split; [unfold writePositive; destruct (0 <? cnt b); reflexivity|].
  intros c. destruct (F c) as [F1 F2]. rewrite F1, F2. unfold writePositive. destruct (0 <? cnt b); cbn; rewrite ?upd2_eq, ?Q; auto.
Qed.
Lemma initPC_frame H l : forall s s' e', initializePinCountInPart H s l = Some s' -> ~ In e' l ->
  part s' = part s /\ (forall c, pc s' e' c = pc s e' c /\ cs s' e' c = cs s e' c).
Proof.
  unfold initializePinCountInPart. induction l as [|e l IH]; intros s s' e' E N; cbn [fold_opt] in E; [injection E as <-; auto|].
  unfold initEdge at 1 in E. destruct (forallb _ (pins H e)); [|discriminate].
  assert (Ne : e' <> e) by (intros ->; apply N; left; reflexivity).
  destruct (writePos_frame (localPinCount H (part s) e) e (seq 0 (pk s)) s e' Ne) as [P1 F1].
  destruct (IH _ s' e' E) as [P2 F2]; [intros Q; apply N; right; exact Q|]. split; [congruence|].
  intros c. destruct (F1 c), (F2 c). split; congruence.
Qed.
Lemma initBW_frame H l : forall s s', initializeBlockWeights H s l = Some s' -> pc s' = pc s /\ cs s' = cs s /\ part s' = part s.
Proof.
  unfold initializeBlockWeights. induction l as [|c l IH]; intros s s' E; cbn [fold_opt] in E; [injection E as <-; auto|].
  unfold applyChunk at 1 in E. destruct (forallb _ c); [|discriminate]. destruct (IH _ _ E) as (A & C & D). auto.
Qed.
(** Untouched: dormant hyperedges outside H, unassigned nodes outside H. *)
Definition outside (H : hypergraph) (s : phg) : Prop :=
  (forall e, ~ In e (edges H) -> dormant s e) /\ (forall v, ~ In v (nodes H) -> part s v = None).

Lemma step_outside H s o s' : wf_hg H -> op_schedule_ok H o -> phg_step H s o = Some s' -> outside H s -> outside H s'.
Proof.
  intros WF Ok E [O1 O2].
  assert (NI : forall u e, In u (nodes H) -> ~ In e (edges H) -> ~ In e (inc H u)).
  { intros u e Hu He Q. apply He, (wf_inc H WF u e Hu), Q. }
  destruct o as [u p|ch eo|u p|u f t m|]; cbn in E, Ok.
  - unfold setOnlyNodePart in E. destruct (p <? pk s)%nat; [|discriminate]. destruct (part s u); [discriminate|]. injection E as <-. split; [exact O1|].
    intros v Hv. cbn. rewrite upd_other; [apply O2, Hv|]. intros ->. contradiction.
  - unfold initializePartition in E. destruct (initializeBlockWeights H s ch) as [s1|] eqn:E1; [|discriminate]. destruct (initBW_frame _ _ _ _ E1) as (A1 & A2 & A3).
    destruct Ok as [_ Ok]. split.
    + intros e He. destruct (initPC_frame H eo s1 s' e E) as [_ F]; [intros Q; apply He, (Permutation_in _ Ok), Q|]. apply (dormant_eq s1); [exact F|].
      apply (dormant_eq s); [|apply O1, He]. intros c. rewrite A1, A2. auto.
    + intros v Hv. destruct (in_dec Nat.eq_dec 0%nat eo) as [_|_]; (* any hyperedge id not in eo works for the part component *)
      destruct (initPC_frame H eo s1 s' (S (list_max eo)) E) as [P _];
        try (intros Q; pose proof (proj1 (list_max_le eo (list_max eo)) (le_n _)) as M; rewrite Forall_forall in M; specialize (M _ Q); lia);
        rewrite P, A3; apply O2, Hv.
  - unfold setNodePart, setOnlyNodePart in E. destruct (p <? pk s)%nat; [|discriminate]. destruct (part s u); [discriminate|]. split.
    + intros e He. destruct (incEdges_frame _ _ _ _ e E (NI u e Ok He)) as [_ F]. apply (dormant_eq _ _ _ F). exact (O1 e He).
    + intros v Hv. destruct (incEdges_frame _ _ _ _ (S (list_max (inc H u))) E) as [P _].
      * intros Q. pose proof (proj1 (list_max_le (inc H u) (list_max (inc H u))) (le_n _)) as M. rewrite Forall_forall in M. specialize (M _ Q). lia.
      * rewrite P. cbn. rewrite upd_other; [apply O2, Hv|]. intros ->. contradiction.
  - destruct (changeNodePart H s u f t m) as [[[s2 ok] sus]|] eqn:E1; [|discriminate]. injection E as <-. unfold changeNodePart in E1.
    destruct (_ && _ && _); [|discriminate]. destruct (_ <=? m).
    + destruct (updateEdges H _ (inc H u) f t) as [[s3 z]|] eqn:E2; [|discriminate]. injection E1 as <- _ _. split.
      * intros e He. destruct (updEdges_frame _ _ _ _ _ _ _ e E2 (NI u e Ok He)) as [_ F]. apply (dormant_eq _ _ _ F). exact (O1 e He).
      * intros v Hv. destruct (updEdges_frame _ _ _ _ _ _ _ (S (list_max (inc H u))) E2) as [P _].
        -- intros Q. pose proof (proj1 (list_max_le (inc H u) (list_max (inc H u))) (le_n _)) as M. rewrite Forall_forall in M. specialize (M _ Q). lia.
        -- rewrite P. cbn. rewrite upd_other; [apply O2, Hv|]. intros ->. contradiction.
    + injection E1 as <- _ _. split; assumption.
  - injection E as <-. split; [intros e _ b; cbn; auto|reflexivity].
Qed.
Lemma run_outside H ops : wf_hg H -> forall s s', Forall (op_schedule_ok H) ops -> phg_run H s ops = Some s' -> outside H s -> outside H s'.
Proof.
  intros WF. unfold phg_run. induction ops as [|o ops IH]; intros s s' F E O; cbn [fold_opt] in E; [injection E as <-; exact O|].
  destruct (phg_step H s o) as [s1|] eqn:E1; [|discriminate]. inversion F; subst. eapply IH; eauto. eapply step_outside; eauto.
Qed.

(** Hyperedges a thread still has to update. *)
Definition pending (t : tst) : list nat :=
  match t with Idle | Added _ _ | Stored _ => [] | Edges _ r => r | Locked _ e r | Dec _ e r _ => e :: r | Incd _ r _ | Delta _ r _ => r end.
Definition cst_out (H : hypergraph) (st : cst) : Prop :=
  outside H (sh st) /\ forall i, incl (pending (th st i)) (edges H) /\ (forall m, mv_of (th st i) = Some m -> In (m_u m) (nodes H)).
Lemma cstep_out H n mops st l st' : wf_hg H -> cstep H n mops st l = Some st' -> cst_out H st -> cst_out H st'.
Proof.
  intros WF E [O I].
  assert (TH : forall i t, incl (pending t) (edges H) -> (forall m, mv_of t = Some m -> In (m_u m) (nodes H)) ->
    forall j, incl (pending (upd (th st) i t j)) (edges H) /\ (forall m, mv_of (upd (th st) i t j) = Some m -> In (m_u m) (nodes H))).
  { intros i t A C j. unfold upd. destruct (Nat.eqb j i); [auto|apply I]. }
  assert (AW : forall b x, outside H (add_wt (sh st) b x)) by (intros; exact O).
  destruct l as [i m|i]; cbn [cstep] in E.
  - destruct (th st i); try discriminate. destruct (_ && _ && _ && _ && _ && mem (m_u m) (nodes H)) eqn:C; [|discriminate]. injection E as <-.
    split; [apply AW|]. cbn. apply TH; [intros x []|]. cbn. intros m' [= <-]. apply andb_true_iff in C. apply mem_In, C.
  - destruct (i <? n)%nat; [|discriminate]. unfold adv in E. destruct (I i) as [Ip Im].
    destruct (th st i) as [|m a|m|m rem|m e rem|m e rem fa|m rem su|m rem ops] eqn:T; try discriminate; cbn [pending] in Ip; pose proof (Im m eq_refl) as Hm.
    + destruct (a <=? m_max m); injection E as <-; (split; [|cbn; apply TH; [intros x []|try discriminate; cbn; intros m' [= <-]; exact Hm]]); cbn.
      * split; [apply O|]. intros v Hv. cbn. rewrite upd_other; [apply O, Hv|]. intros ->. contradiction.
      * exact O.
    + injection E as <-. split; [exact O|]. cbn. apply TH; [|cbn; intros m' [= <-]; exact Hm]. cbn. intros e He. apply (wf_inc H WF _ _ Hm), He.
    + destruct rem as [|e rem].
      * injection E as <-. split; [exact O|]. cbn. apply TH; [intros x []|discriminate].
      * destruct (lk st e); [discriminate|]. injection E as <-. split; [exact O|]. cbn. apply TH; [exact Ip|cbn; intros m' [= <-]; exact Hm].
    + destruct (decrementPinCountOfBlock (sh st) e (m_from m)) as [[s' fa]|] eqn:D; [|discriminate]. injection E as <-. split; [|cbn; apply TH; [exact Ip|cbn; intros m' [= <-]; exact Hm]].
      cbn. split.
      * intros e' He'. assert (Ne : e' <> e) by (intros ->; apply He', Ip; left; reflexivity). destruct (dec_frame _ _ _ _ _ e' D Ne) as (_ & _ & _ & F). apply (dormant_eq _ _ _ F), O, He'.
      * intros v Hv. destruct (dec_frame _ _ _ _ _ (S e) D ltac:(lia)) as (_ & P & _). rewrite P. apply O, Hv.
    + destruct (incrementPinCountOfBlock (sh st) e (m_to m)) as [[s' ta]|] eqn:D; [|discriminate]. injection E as <-. split; [|cbn; apply TH; [intros x Hx; apply Ip; right; exact Hx|cbn; intros m' [= <-]; exact Hm]].
      cbn. split.
      * intros e' He'. assert (Ne : e' <> e) by (intros ->; apply He', Ip; left; reflexivity). destruct (inc_frame _ _ _ _ _ e' D Ne) as (_ & _ & _ & F). apply (dormant_eq _ _ _ F), O, He'.
      * intros v Hv. destruct (inc_frame _ _ _ _ _ (S e) D ltac:(lia)) as (_ & P & _). rewrite P. apply O, Hv.
    + injection E as <-. split; [exact O|]. cbn. apply TH; [exact Ip|cbn; intros m' [= <-]; exact Hm].
    + destruct ops as [|o ops].
      * injection E as <-. split; [exact O|]. cbn. apply TH; [exact Ip|cbn; intros m' [= <-]; exact Hm].
      * destruct (exec_mop (part (sh st)) (gc st) o ops) as [c' ops']. injection E as <-. split; [exact O|]. cbn. apply TH; [exact Ip|cbn; intros m' [= <-]; exact Hm].
Qed.
Lemma crun_out H n mops l : wf_hg H -> forall st st', crun H n mops st l = Some st' -> cst_out H st -> cst_out H st'.
Proof.
  intros WF. unfold crun. induction l as [|a l IH]; intros st st' E O; cbn [fold_opt] in E; [injection E as <-; exact O|].
  destruct (cstep H n mops st a) as [s1|] eqn:E1; [|discriminate]. eapply IH; eauto. eapply cstep_out; eauto.
Qed.

Lemma worked_inv H k s : wf_hg H -> worked H k s -> consistent H s /\ complete H (part s) k /\ pk s = k /\ outside H s.
Proof.
  intros WF W. induction W as [ops s A F E C|s n mops c l st W IH E Q].
  - destruct (history_inv H ops MEmpty MLive (phg_init k) s WF) as [I K]; auto; [split; [apply only_ids_init|reflexivity]|].
    split; [exact I|]. split; [exact C|]. split; [exact K|]. apply (run_outside H ops WF (phg_init k)); auto. split; [intros e _ b; cbn; auto|reflexivity].
  - destruct IH as (C & HC & K & O). rewrite <- K in HC. destruct (conc_quiescent H n mops WF s c l st C HC E Q) as (K' & C' & HC' & _).
    split; [exact C'|]. split; [rewrite K in HC'; exact HC'|]. split; [congruence|].
    apply (crun_out H n mops l WF (cinit s c) st E). split; [exact O|]. intros i. cbn. split; [intros x []|discriminate].
Qed.
