(** RBExamples.v - recursive bipartitioning can always complete; extraction is safe under every schedule with cut-net
    splitting, and not without it; concrete cases. *)
From Verif Require Import Base Spec SpecLemmas WfCheck PHG PHGProofs Objective GainCache GainCacheProofs Conc ConcProofs ConcMore ConcRun ConcProgress
  PropsA Rollback RollbackProofs Scan Revert Construct EdgeRemoval Restore RestoreProofs RestoreExamples Extract RB RBCost.

(** ** Extraction while the sibling task moves nodes *)
(** C25: with cut-net splitting, whatever the interleaving with moves between other blocks, extraction yields the block's
    sub-hypergraph. *)
Theorem C25_extract_any_schedule H n mops s c l o b stable ks mem1 mem2 : started H s -> (b < pk s)%nat ->
  observes H n mops s c l o (Forall (avoids b)) -> ksched_ok (length (es H b true o)) (edge_vector H b true o) ks ->
  exists X mp, extract H b true o stable ks mem1 mem2 = Some (X, mp) /\ extracted H (part s) b true X mp.
Proof.
  intros S Hb O OK. destruct (extract_ok H (part s) b true o (proj1 S) (faithful_moving H n mops s c l o b S Hb O) ltac:(discriminate) stable ks mem1 mem2 OK) as (X & E & EX & _).
  exists X, (hn_mapping H b o). auto.
Qed.
(** Without it the same holds if no move is in progress during the reads. *)
Theorem C25_extract_quiet H n mops s c l o b split stable ks mem1 mem2 : started H s -> (b < pk s)%nat ->
  observes H n mops s c l o (quiet H n mops s c b) -> ksched_ok (length (es H b split o)) (edge_vector H b split o) ks ->
  exists X mp, extract H b split o stable ks mem1 mem2 = Some (X, mp) /\ extracted H (part s) b split X mp.
Proof.
  intros S Hb O OK. destruct (faithful_quiet H n mops s c l o b S Hb O) as [F FC].
  destruct (extract_ok H (part s) b split o (proj1 S) F (fun _ => FC) stable ks mem1 mem2 OK) as (X & E & EX & _).
  exists X, (hn_mapping H b o). auto.
Qed.

(** ** Sequential execution of a list of moves *)
Definition seq_ks (m : nat) (evs : list (list nat)) : ksched := mkKS [seq 0 m] (events m evs) (events m evs).
Lemma seq_ks_ok m evs : ksched_ok m evs (seq_ks m evs).
Proof. unfold ksched_ok, seq_ks. cbn [k_threads k_fa k_wr concat]. rewrite app_nil_r. auto. Qed.

Section SeqRun.
Variables (H : hypergraph) (s : phg) (c : cache).
Hypothesis ST : started H s.

Lemma crun_app n mops l1 l2 st : crun H n mops st (l1 ++ l2) = match crun H n mops st l1 with Some st1 => crun H n mops st1 l2 | None => None end.
Proof. unfold crun. apply fold_opt_app. Qed.

Lemma finish : forall w l st, (work H 1 st <= w)%nat -> crun H 1 no_mops (cinit s c) l = Some st ->
  exists l' st', crun H 1 no_mops st l' = Some st' /\ quiescent 1 st' /\ begins l' = [].
Proof.
  destruct ST as (WF & C & HC). induction w as [|w IH]; intros l st Hw E.
  - exists [], st. split; [reflexivity|]. split; [|reflexivity]. intros i Hi. destruct (th st i) eqn:Et; [reflexivity|exfalso..].
    all: assert (i = 0%nat) as -> by lia; unfold work in Hw; cbn [seq map list_sum fold_right] in Hw; rewrite Et in Hw; cbn [tcost] in Hw; unfold remcost, ecost in Hw; cbn in Hw; lia.
  - assert (D : quiescent 1 st \/ ~ quiescent 1 st).
    { destruct (th st 0) eqn:Et; [left; intros i Hi; assert (i = 0%nat) as -> by lia; exact Et|right; intros Q; specialize (Q 0%nat ltac:(lia)); congruence..]. }
    destruct D as [D|D]; [exists [], st; split; [reflexivity|]; split; [exact D|reflexivity]|].
    destruct (progress H 1 no_mops WF s c l st C HC E D) as (i & st1 & E1).
    pose proof (adv_decreases H 1 no_mops ltac:(intros su; cbn; lia) st i st1 E1) as Dw.
    destruct (IH (l ++ [Adv i]) st1) as (l' & st' & E' & Q & B); [lia|rewrite crun_app, E; unfold crun; cbn [fold_opt]; rewrite E1; reflexivity|].
    exists (Adv i :: l'), st'. split; [unfold crun in *; cbn [fold_opt]; rewrite E1; exact E'|]. split; [exact Q|exact B].
Qed.

(** A single thread that makes no new call finishes the call it is in. *)
Definition in_call (m : mv) (r : list (mv * bool)) (st : cst) : Prop :=
  mv_of (th st 0) = Some m /\ rep st = r \/ (th st 0%nat = Idle /\ exists bb, rep st = (m, bb) :: r).
Lemma one_move m r : forall l st0 st', begins l = [] -> crun H 1 no_mops st0 l = Some st' -> in_call m r st0 -> in_call m r st'.
Proof.
  induction l as [|a l IH]; intros st0 st' Ha E D; [cbn in E; injection E as <-; exact D|]. unfold crun in E. cbn [fold_opt] in E. destruct (cstep H 1 no_mops st0 a) as [st1|] eqn:E1; [|discriminate].
  destruct a as [i x|j]; [discriminate Ha|]. apply (IH st1 st' Ha E). cbn [cstep] in E1. destruct (j <? 1)%nat eqn:Ej; [|discriminate]. apply Nat.ltb_lt in Ej. assert (j = 0%nat) as -> by lia.
  unfold adv in E1. destruct D as [[D1 D2]|[D1 D2]]; [|rewrite D1 in E1; discriminate]. unfold in_call.
  destruct (th st0 0) as [|m0 a|m0|m0 rem|m0 e rem|m0 e rem fa|m0 rem su|m0 rem ops] eqn:Et; cbn [mv_of] in D1; try discriminate D1; injection D1 as ->.
  - destruct (a <=? m_max m); injection E1 as <-; cbn [th set_th set_sh rep]; rewrite upd_same; [left; auto|right; split; [reflexivity|eexists; rewrite D2; reflexivity]].
  - injection E1 as <-. cbn [th set_th set_sh rep]; rewrite upd_same. left; auto.
  - destruct rem as [|e rem]; [injection E1 as <-; cbn [th set_th set_sh rep]; rewrite upd_same; right; split; [reflexivity|eexists; rewrite D2; reflexivity]|].
    destruct (lk st0 e); [discriminate|]. injection E1 as <-. cbn [th set_th set_lk rep]; rewrite upd_same. left; auto.
  - destruct (decrementPinCountOfBlock _ _ _) as [[s' fa]|]; [|discriminate]. injection E1 as <-. cbn [th set_th set_sh rep]; rewrite upd_same. left; auto.
  - destruct (incrementPinCountOfBlock _ _ _) as [[s' ta]|]; [|discriminate]. injection E1 as <-. cbn [th set_th set_sh rep]; rewrite upd_same. left; auto.
  - injection E1 as <-. cbn [th set_th set_lk rep]; rewrite upd_same. left; auto.
  - destruct ops as [|op ops]; [injection E1 as <-; cbn [th set_th rep]; rewrite upd_same; left; auto|]. destruct (exec_mop _ _ _ _) as [c' ops']. injection E1 as <-. cbn [th set_th rep]; rewrite upd_same. left; auto.
Qed.

Lemma seq_moves ms : forall l st, crun H 1 no_mops (cinit s c) l = Some st -> quiescent 1 st -> NoDup (map m_u ms) ->
  (forall m, In m ms -> In (m_u m) (nodes H) /\ part (sh st) (m_u m) = Some (m_from m) /\ m_from m <> m_to m /\ (m_to m < pk s)%nat) ->
  exists l' st', crun H 1 no_mops st l' = Some st' /\ quiescent 1 st' /\ begins l' = ms.
Proof.
  destruct ST as (WF & C & HC). induction ms as [|m ms IH]; intros l st E Q ND Hm.
  - exists [], st. split; [reflexivity|]. split; [exact Q|reflexivity].
  - cbn [map] in ND. apply NoDup_cons_iff in ND. destruct ND as [Nm ND]. destruct (Hm m (or_introl eq_refl)) as (Hu & Hp & Hft & Ht).
    destruct (conc_quiescent H 1 no_mops WF s c l st C HC E Q) as (K & _).
    assert (E1 : exists st1, cstep H 1 no_mops st (Begin 0 m) = Some st1).
    { cbn [cstep]. rewrite (Q 0%nat ltac:(lia)). unfold is_free. cbn [seq forallb]. rewrite (Q 0%nat ltac:(lia)). cbn [node_of].
      rewrite (proj2 (in_block_true _ _ _) Hp), K, (proj2 (Nat.ltb_lt _ _) Ht), (proj2 (mem_In _ _) Hu). destruct (Nat.eqb_spec (m_from m) (m_to m)); [contradiction|]. cbn. eexists. reflexivity. }
    destruct E1 as (st1 & E1).
    assert (R1 : crun H 1 no_mops (cinit s c) (l ++ [Begin 0 m]) = Some st1) by (rewrite crun_app, E; unfold crun; cbn [fold_opt]; rewrite E1; reflexivity).
    destruct (finish (work H 1 st1) _ st1 ltac:(lia) R1) as (l2 & st2 & E2 & Q2 & B2).
    assert (R2 : crun H 1 no_mops (cinit s c) ((l ++ [Begin 0 m]) ++ l2) = Some st2) by (rewrite crun_app, R1; exact E2).
    destruct (IH _ st2 R2 Q2 ND) as (l3 & st3 & E3 & Q3 & B3).
    + intros m' Hm'. destruct (Hm m' (or_intror Hm')) as (Hu' & Hp' & Hft' & Ht'). split; [exact Hu'|]. split; [|auto].
      destruct (conc_quiescent H 1 no_mops WF s c _ st C HC E Q) as (_ & _ & _ & P1). destruct (conc_quiescent H 1 no_mops WF s c _ st2 C HC R2 Q2) as (_ & _ & _ & P2).
      rewrite P2, <- Hp', P1.
      pose proof (quiescent_returned H 1 no_mops s c _ st E Q) as B1'. pose proof (quiescent_returned H 1 no_mops s c _ st2 R2 Q2) as B2'.
      assert (X : exists bb, rep st2 = (m, bb) :: rep st).
      { destruct (one_move m (rep st) l2 st1 st2) as [[D1 _]|[_ D]]; [exact B2|exact E2| | |exact D].
        - left. cbn [cstep] in E1. rewrite (Q 0%nat ltac:(lia)) in E1. destruct (_ && _); [|discriminate]. injection E1 as <-. cbn [th set_th set_sh rep]. rewrite upd_same. auto.
        - rewrite (Q2 0%nat ltac:(lia)) in D1. discriminate D1. }
      destruct X as [bb X]. rewrite X. cbn [replay fold_right fst snd]. fold (replay (part s) (rep st)). destruct bb; [|reflexivity].
      unfold move. rewrite upd_other; [reflexivity|]. intros Q'. apply Nm. rewrite <- Q'. apply in_map, Hm'.
    + exists (Begin 0 m :: l2 ++ l3), st3. split; [unfold crun in *; cbn [fold_opt]; rewrite E1, fold_opt_app, E2; exact E3|]. split; [exact Q3|]. cbn [begins flat_map app]. f_equal.
      fold (begins (l2 ++ l3)). unfold begins in *. rewrite flat_map_app, B2, B3. reflexivity.
Qed.
End SeqRun.

(** ** Recursive bipartitioning never gets stuck *)
Lemma fin_choice {A B} (R : A -> B -> Prop) (d : B) (dec : forall x y : A, {x = y} + {x <> y}) (l : list A) :
  (forall x, In x l -> exists y, R x y) -> exists f, forall x, In x l -> R x (f x).
Proof.
  induction l as [|a l IH]; intros Hx; [exists (fun _ => d); intros x []|]. destruct IH as [f Hf]; [intros x Hl; apply Hx; right; exact Hl|].
  destruct (Hx a (or_introl eq_refl)) as [y Hy]. exists (fun x => if dec x a then y else f x). intros x [<-|Hl]; [destruct (dec a a); [exact Hy|congruence]|].
  destruct (dec x a) as [->|]; [exact Hy|apply Hf, Hl].
Qed.
Lemma flat_map_nil {A B} (f : A -> list B) l : (forall x, In x l -> f x = []) -> flat_map f l = [].
Proof. induction l as [|a l IH]; intros E; [reflexivity|]. cbn [flat_map]. rewrite (E a (or_introl eq_refl)), IH; [reflexivity|]. intros x Hx. apply E. right. exact Hx. Qed.
Definition pair_dec (x y : nat * nat) : {x = y} + {x <> y}.
Proof. decide equality; apply Nat.eq_dec. Defined.

(** Weights that adaptWeightsOfNonCutEdges can double without leaving the int32 range. *)
Definition adaptable (p : policy) (H : hypergraph) (ac : nat -> bool) : Prop :=
  usesAdaptiveWeight p = true -> forall e, In e (edges H) -> ac e = true \/ int32 (nonCutEdgeMultiplier p * ew H e) = true.
Lemma adapt_there_and_back p H ac : adaptable p H ac -> exists Hb H', adaptWeights p H ac false = Some Hb /\ adaptWeights p Hb ac true = Some H' /\ (forall e, ew H' e = ew H e).
Proof.
  intros A. unfold adaptable, adaptWeights in *. destruct (usesAdaptiveWeight p) eqn:U; [|exists H, H; auto].
  assert (M : nonCutEdgeMultiplier p = 2) by (destruct p; try discriminate U; reflexivity).
  assert (A1 : forallb (fun e => ac e || int32 (adapt1 p false (ew H e))) (edges H) = true).
  { apply forallb_forall. intros e He. destruct (A eq_refl e He) as [->| E]; [reflexivity|]. unfold adapt1. rewrite Z.mul_comm, E. apply orb_true_r. }
  rewrite A1. eexists. eexists. split; [reflexivity|]. split.
  - cbn [edges ew nodes pins inc nw]. replace (forallb _ (edges H)) with true; [reflexivity|]. symmetry. apply forallb_forall. intros e He. destruct (A eq_refl e He) as [->| E]; [reflexivity|].
    destruct (ac e); [reflexivity|]. cbn [orb]. unfold adapt1. rewrite M in *. rewrite Z.quot_mul by lia. unfold int32 in *. apply andb_true_iff in E. destruct E as [E1 E2]. apply andb_true_iff. lia.
  - intros e. cbn [ew]. destruct (ac e); [reflexivity|]. unfold adapt1. rewrite M. apply Z.quot_mul. lia.
Qed.

(** C24 / C25: whatever the input, a run of recursive bipartitioning exists (the hypotheses of C24 and C25 are not vacuous),
    even with all extractions reading a partition at rest. *)
Theorem C24_always_completes p : forall k H fix_ ac, (2 <= k)%nat -> wf_hg H -> (forall v, In v (nodes H) -> 0 <= nw H v) -> total_weight H <= MAXW ->
  (forall v f, In v (nodes H) -> fix_ v = Some f -> (f < k)%nat) -> adaptable p H ac ->
  exists s cost, rb true p k H fix_ ac s cost.
Proof.
  induction k as [k IH] using (well_founded_induction lt_wf). intros H fix_ ac Hk WF NWP TW HX AD.
  destruct (adapt_there_and_back p H ac AD) as (Hb & H' & A1 & A2 & EW).
  destruct (adapt_structure _ _ _ _ _ A1) as (N1 & N2 & N3 & N4 & N5). destruct (adapt_structure _ _ _ _ _ A2) as (M1 & M2 & M3 & M4 & M5).
  set (bip := fun v : nat => match fix_ v with Some f => Some (side_of_fixed k f) | None => Some 0%nat end).
  assert (WF' : wf_hg H') by (apply (wf_same H H'); congruence).
  assert (TW' : total_weight H' <= MAXW) by (unfold total_weight in *; rewrite M1, M5, N1, N5; exact TW).
  assert (NWP' : forall v, In v (nodes H') -> 0 <= nw H' v) by (rewrite M1, M5, N1, N5; exact NWP).
  assert (CB : forall G, complete G bip 2).
  { intros G v _. unfold bip, side_of_fixed. destruct (fix_ v) as [f|]; [destruct (f <? kl k)%nat|]; eexists; (split; [reflexivity|lia]). }
  assert (FIX : forall v f, In v (nodes H') -> fix_ v = Some f -> (f < k)%nat /\ bip v = Some (side_of_fixed k f)).
  { intros v f Hv Hf. split; [apply (HX v f); [congruence|exact Hf]|]. unfold bip. rewrite Hf. reflexivity. }
  assert (E1 : exists s1, phg_run H' (phg_init k) (map (fun v => OSetOnly v (apply_bip k bip v)) (nodes H') ++ [OInit [nodes H'] (edges H')]) = Some s1).
  { unfold phg_run. rewrite fold_opt_app.
    assert (F : forall v, (apply_bip k bip v < k)%nat) by (intros v; pose proof (kl_bounds k Hk); unfold apply_bip; destruct (bip v) as [[|]|]; lia).
    destruct (setonly_run H' k (apply_bip k bip) F (nodes H') (phg_init k) eq_refl (wf_nodes H' WF') ltac:(reflexivity)) as (s & E & K & W & Pc & Cs & Pt). rewrite E. cbn [fold_opt phg_step].
    destruct (init_ok H' WF' s [nodes H'] (edges H')) as (s' & E' & _).
    - constructor; [|rewrite W; reflexivity|rewrite Pc; reflexivity|rewrite Cs; reflexivity]. intros v b. rewrite Pt, K. destruct (mem v (nodes H')); [intros [= <-]; apply F|discriminate].
    - intros v Hv. rewrite Pt, (proj2 (mem_In v (nodes H')) Hv), K. eauto.
    - cbn. rewrite app_nil_r. reflexivity.
    - reflexivity.
    - rewrite E'. eauto. }
  destruct E1 as [s1 E1]. assert (PC : Permutation (concat [nodes H']) (nodes H')) by (cbn; rewrite app_nil_r; reflexivity).
  destruct (after_bip H' k bip (nodes H') [nodes H'] (edges H') s1 WF' Hk (Permutation_refl _) PC (Permutation_refl _) E1) as (S1 & K1 & P1).
  set (o := fun (t : nat * nat) (r : rd) => s1). set (ks := fun t : nat * nat => seq_ks (length (es H' (fst t) (useCutNetSplitting p) (o t))) (edge_vector H' (fst t) (useCutNetSplitting p) (o t))).
  set (c0 := mkCache (fun _ => 0) (fun _ _ => 0)).
  assert (FF : forall t, In t (tasks k) -> faithful H' (part s1) (fst t) (o t) /\ faithful_cut H' (part s1) (fst t) (o t)).
  { intros t Ht. apply (faithful_rest H' s1 (fst t)); [exact WF'|apply S1|]. destruct (in_tasks k t Hk Ht) as (_ & _ & D). pose proof (kl_bounds k Hk). lia. }
  destruct (fin_choice (fun t (X : hypergraph) => extract H' (fst t) (useCutNetSplitting p) (o t) true (ks t) (fun x => x) (fun x => x) = Some (X, hn_mapping H' (fst t) (o t)) /\
      extracted H' (part s1) (fst t) (useCutNetSplitting p) X (hn_mapping H' (fst t) (o t)) /\
      (forall ac0 i, extracted_ac H' (fst t) (useCutNetSplitting p) (o t) ac0 i = match nth_error (block_edges H' (part s1) (fst t) (useCutNetSplitting p)) i with Some e => ac0 e | None => false end)) H' pair_dec (tasks k)) as [X HXt].
  { intros t Ht. destruct (FF t Ht) as [F1 F2]. apply (extract_ok H' (part s1) (fst t) (useCutNetSplitting p) (o t) WF' F1 (fun _ => F2)). apply seq_ks_ok. }
  set (mp := fun t : nat * nat => hn_mapping H' (fst t) (o t)).
  assert (EXT : forall t, In t (tasks k) -> ksched_ok (length (es H' (fst t) (useCutNetSplitting p) (o t))) (edge_vector H' (fst t) (useCutNetSplitting p) (o t)) (ks t) /\
       extract H' (fst t) (useCutNetSplitting p) (o t) true (ks t) (fun x => x) (fun x => x) = Some (X t, mp t)).
  { intros t Ht. split; [apply seq_ks_ok|apply (HXt t Ht)]. }
  assert (OB : forall l t, observes H' 1 no_mops s1 c0 l (o t) (before_own true H' 1 s1 c0 (fst t))).
  { intros l t r. exists [], l, (cinit s1 c0). split; [reflexivity|]. split; [|split; reflexivity]. split; [intros i m []|]. intros _ st. unfold crun. cbn [fold_opt]. intros [= <-] i _. reflexivity. }
  (* properties of the children: instantiate the lemmas of one level with children that leave everything in block 0 *)
  set (so0 := fun _ : nat * nat => mkPHG 1 (fun _ => Some 0%nat) (fun _ => 0) (fun _ _ => 0) (fun _ _ => false)).
  assert (BEG0 : Permutation (begins []) (flat_map (fun t => child_moves H' (part s1) (fst t) (mp t) (part (so0 t))) (tasks k))).
  { replace (flat_map _ (tasks k)) with (@nil mv); [reflexivity|]. symmetry. apply flat_map_nil. intros t _. apply flat_map_nil. intros v _. cbn [so0 part]. destruct (in_block _ _ _); [|reflexivity]. destruct (mp t v); reflexivity. }
  assert (SUB0 : forall t i q, In t (tasks k) -> part (so0 t) i = Some q -> (q < snd t)%nat).
  { intros t i q Ht [= <-]. pose proof (in_tasks k t Hk Ht). lia. }
  assert (Q0 : quiescent 1 (cinit s1 c0)) by (intros i _; reflexivity).
  pose proof (child_nodes true p k H' fix_ bip s1 1%nat c0 [] (cinit s1 c0) o ks (fun _ x => x) (fun _ x => x) true X mp so0 Hk S1 K1 NWP' TW' (CB H') P1 FIX (fun t _ => OB [] t) EXT eq_refl Q0 BEG0 SUB0) as CN.
  pose proof (child_fix_spec true p k H' fix_ bip s1 1%nat c0 [] (cinit s1 c0) o ks (fun _ x => x) (fun _ x => x) true X mp so0 Hk S1 K1 NWP' TW' (CB H') P1 FIX (fun t _ => OB [] t) EXT eq_refl Q0 BEG0 SUB0) as CF.
  pose proof (child_node_of true p k H' fix_ bip s1 1%nat c0 [] (cinit s1 c0) o ks (fun _ x => x) (fun _ x => x) true X mp so0 Hk S1 K1 NWP' TW' (CB H') P1 FIX (fun t _ => OB [] t) EXT eq_refl Q0 BEG0 SUB0) as CO.
  pose proof (child_weights true p k H' fix_ bip s1 1%nat c0 [] (cinit s1 c0) o ks (fun _ x => x) (fun _ x => x) true X mp so0 Hk S1 K1 NWP' TW' (CB H') P1 FIX (fun t _ => OB [] t) EXT eq_refl Q0 BEG0 SUB0) as CW.
  destruct (fin_choice (fun t (sc : phg * Z) => rb true p (snd t) (X t) (child_fix H' fix_ (mp t) (fst t) (fst t + snd t))
          (extracted_ac H' (fst t) (useCutNetSplitting p) (o t) (next_ac p s1 ac)) (fst sc) (snd sc)) (s1, 0) pair_dec (tasks k)) as [sc SUBR].
  { intros t Ht. destruct (IH (snd t)) with (H := X t) (fix_ := child_fix H' fix_ (mp t) (fst t) (fst t + snd t)) (ac := extracted_ac H' (fst t) (useCutNetSplitting p) (o t) (next_ac p s1 ac)) as (s & co & R).
    - apply (in_tasks k t Hk Ht).
    - apply (in_tasks k t Hk Ht).
    - apply (CN t Ht).
    - apply (CW t Ht).
    - apply (CW t Ht).
    - intros i f Hi Hf. destruct (CO t i Ht Hi) as (v & Em & Hv & Hp & _). destruct (CF t v i Ht Em) as [CFa CFb]. rewrite CFa in Hf. destruct (fix_ v) as [g|]; [|discriminate]. injection Hf as <-. specialize (CFb g eq_refl). lia.
    - intros U i Hi. destruct (HXt t Ht) as (_ & EX & EA). rewrite EA. rewrite (x_edges _ _ _ _ _ _ EX) in Hi. apply in_seq in Hi.
      destruct (nth_error (block_edges H' (part s1) (fst t) (useCutNetSplitting p)) i) as [e|] eqn:Ee; [|apply nth_error_None in Ee; lia].
      rewrite (x_ew _ _ _ _ _ _ EX i e Ee). pose proof (nth_error_In _ _ Ee) as He. unfold block_edges in He. apply filter_In in He. destruct He as [He _].
      rewrite EW. destruct (AD U e) as [Y|Y]; [congruence|left; unfold next_ac; rewrite U, Y; reflexivity|right; exact Y].
    - exists (s, co). exact R. }
  (* the moves, one after the other *)
  set (so := fun t => fst (sc t)). set (ms := flat_map (fun t => child_moves H' (part s1) (fst t) (mp t) (part (so t))) (tasks k)).
  assert (TE : forall t t', In t (tasks k) -> In t' (tasks k) -> fst t = fst t' -> t = t').
  { intros t t' Ht Ht' E. destruct (in_tasks k t Hk Ht) as (_ & _ & A). destruct (in_tasks k t' Hk Ht') as (_ & _ & B). pose proof (kl_bounds k Hk).
    destruct t as [a b], t' as [a' b']; cbn [fst snd] in *. subst a'. f_equal. lia. }
  destruct (seq_moves H' s1 c0 S1 ms [] (cinit s1 c0) eq_refl Q0) as (l & st & R & Q & B).
  { unfold ms. assert (Y : forall L, incl L (tasks k) -> NoDup (map fst L) -> NoDup (map m_u (flat_map (fun t => child_moves H' (part s1) (fst t) (mp t) (part (so t))) L))).
    { induction L as [|t L IHL]; intros HL N; [constructor|]. cbn [map] in N. apply NoDup_cons_iff in N. destruct N as [Nt N]. cbn [flat_map]. rewrite map_app. apply NoDup_app_.
      - apply child_moves_nodup, WF'.
      - apply IHL; [intros x Hx; apply HL; right; exact Hx|exact N].
      - intros u Hu Hu'. apply in_map_iff in Hu. destruct Hu as (m & <- & Hm). apply child_moves_spec in Hm. destruct Hm as (v & i1 & q1 & _ & Hp & _ & _ & _ & ->). cbn [m_u] in Hu'.
        apply in_map_iff in Hu'. destruct Hu' as (m & Eu & Hm). apply in_flat_map in Hm. destruct Hm as (t' & Ht' & Hm). apply child_moves_spec in Hm. destruct Hm as (v' & i2 & q2 & _ & Hp' & _ & _ & _ & ->).
        cbn [m_u] in Eu. subst v'. apply Nt. rewrite Hp in Hp'. injection Hp' as ->. apply in_map, Ht'. }
    apply Y; [apply incl_refl|apply tasks_nodup, Hk]. }
  { intros m Hm. unfold ms in Hm. apply in_flat_map in Hm. destruct Hm as (t & Ht & Hm). apply child_moves_spec in Hm. destruct Hm as (v & i & q & Hv & Hp & Hi & Hq & Ne & ->). cbn [m_u m_from m_to].
    split; [exact Hv|]. split; [exact Hp|]. split; [lia|]. destruct (rb_range _ _ _ _ _ _ _ _ (SUBR t Ht)) as [Kt Rt]. specialize (Rt i q Hq). fold (so t) in Kt. unfold so in Kt. rewrite Kt in Rt.
    destruct (in_tasks k t Hk Ht) as (_ & _ & D). pose proof (kl_kr k). lia. }
  exists (sh st). eexists. apply (rb_step true p k H fix_ ac Hb H' bip (nodes H') [nodes H'] (edges H') s1 1%nat c0 l st o ks (fun _ x => x) (fun _ x => x) true X mp so (fun t => snd (sc t))); try assumption; try reflexivity.
  - apply CB.
  - intros v f _ Hf. unfold bip. rewrite Hf. reflexivity.
  - intros t _. apply OB.
  - rewrite B. reflexivity.
Qed.

(** ** Without cut-net splitting the concurrent extraction is unsafe *)
(** If the two evaluations of the condition disagree, extract writes through an invalid index or passes on an empty hyperedge. *)
Lemma stray_edge H b split o stable ks m1 m2 e : In e (edges H) -> cond1 b split o e = false -> cond2 b split o e = true -> extract H b split o stable ks m1 m2 = None.
Proof.
  intros He C1 C2. unfold extract. replace (forallb (no_stray_edge H b split o) (edges H)) with false; [reflexivity|]. symmetry. apply not_true_is_false. rewrite forallb_forall. intros A. specialize (A e He).
  unfold no_stray_edge in A. rewrite C2 in A. cbn [negb orb] in A. apply mem_In in A. unfold es in A. apply filter_In in A. rewrite C1 in A. destruct A; discriminate.
Qed.

Definition hx : hypergraph := mkHG [0;1;2]%nat [0]%nat (fun _ => [0;1;2]%nat) (fun v => if (v <? 3)%nat then [0]%nat else []) (fun _ => 1) (fun _ => 1).
Definition bx : partition := fun v => if Nat.eqb v 2 then Some 1%nat else Some 0%nat.
Definition cx : cache := mkCache (fun _ => 0) (fun _ _ => 0).
(** The sibling task (block 2 of k = 4) moves node 2 to block 3; after five steps it holds the lock of hyperedge 0 and has
    decremented its pin count in block 2 but not yet incremented the one in block 3. *)
Definition lx1 : list label := [Begin 0 (mkMv 2 2 3 MAXW); Adv 0; Adv 0; Adv 0; Adv 0].
Definition lx2 : list label := [Adv 0; Adv 0; Adv 0; Adv 0].
Definition ops_x : list phg_op := map (fun v => OSetOnly v (apply_bip 4 bx v)) (nodes hx) ++ [OInit [nodes hx] (edges hx)].
Lemma hx_wf : wf_hg hx. Proof. apply wf_hgb_sound. vm_compute. reflexivity. Qed.

Lemma run_x : exists s1 st1 st2, phg_run hx (phg_init 4) ops_x = Some s1 /\ crun hx 1 no_mops (cinit s1 cx) lx1 = Some st1 /\ crun hx 1 no_mops (cinit s1 cx) (lx1 ++ lx2) = Some st2 /\
  quiescent 1 st2 /\ conn s1 0 = 2 /\ conn (sh st1) 0 = 1 /\ conn (sh st2) 0 = 2 /\ pc s1 0%nat 0%nat = 2 /\ pc (sh st1) 0%nat 0%nat = 2 /\ pc (sh st2) 0%nat 0%nat = 2.
Proof.
  assert (V : match phg_run hx (phg_init 4) ops_x with
    | Some s1 => match crun hx 1 no_mops (cinit s1 cx) lx1, crun hx 1 no_mops (cinit s1 cx) (lx1 ++ lx2) with
      | Some st1, Some st2 => (match th st2 0 with Idle => true | _ => false end, (conn s1 0, conn (sh st1) 0, conn (sh st2) 0), (pc s1 0%nat 0%nat, pc (sh st1) 0%nat 0%nat, pc (sh st2) 0%nat 0%nat))
      | _, _ => (false, (0, 0, 0), (0, 0, 0)) end
    | None => (false, (0, 0, 0), (0, 0, 0)) end = (true, (2, 1, 2), (2, 2, 2))) by (vm_compute; reflexivity).
  destruct (phg_run hx (phg_init 4) ops_x) as [s1|] eqn:E; [|discriminate V]. destruct (crun hx 1 no_mops (cinit s1 cx) lx1) as [st1|] eqn:E1; [|discriminate V].
  destruct (crun hx 1 no_mops (cinit s1 cx) (lx1 ++ lx2)) as [st2|] eqn:E2; [|discriminate V]. exists s1, st1, st2. injection V as V1 V2 V3 V4 V5 V6 V7.
  split; [reflexivity|]. split; [exact E1|]. split; [exact E2|]. split; [|auto 8]. intros i Hi. assert (i = 0%nat) as -> by lia. destruct (th st2 0); congruence.
Qed.

(** A read of the first pass happens before every read of the second pass. *)
Definition first_pass (r : rd) : bool := match r with RNode1 _ | RPc1 _ | RConn1 _ => true | _ => false end.
Definition in_order (H : hypergraph) (s : phg) (c : cache) (l : list label) (o : rd -> phg) (b : nat) : Prop :=
  exists l1 l2 l3, l = l1 ++ l2 ++ l3 /\ Forall (avoids b) l /\
    (forall r, exists st, crun H 1 no_mops (cinit s c) (if first_pass r then l1 else l1 ++ l2) = Some st /\ o r = sh st).
Lemma in_order_observes H s c l o b st : crun H 1 no_mops (cinit s c) l = Some st -> in_order H s c l o b -> observes H 1 no_mops s c l o (Forall (avoids b)).
Proof.
  intros _ (l1 & l2 & l3 & -> & A & O) r. destruct (O r) as (st1 & E & Eo). destruct (first_pass r).
  - exists l1, (l2 ++ l3), st1. split; [reflexivity|]. split; [apply Forall_app in A; apply A|auto].
  - exists (l1 ++ l2), l3, st1. split; [apply app_assoc|]. split; [rewrite app_assoc in A; apply Forall_app in A; apply A|auto].
Qed.

(** C25 (finding): objective cut, k >= 4.  While the sibling task moves one node, the extraction of block 0 can see the
    hyperedge {0,1,2} as cut in the first pass and as uncut in the second one; it then writes its weight and pins through
    he_mapping[he] = kInvalidHyperedge. *)
Theorem C25_refuted_concurrent_extract : exists H s c l st o, started H s /\ pk s = 4%nat /\ crun H 1 no_mops (cinit s c) l = Some st /\ quiescent 1 st /\
  in_order H s c l o 0 /\ forall stable ks m1 m2, extract H 0 (useCutNetSplitting PCut) o stable ks m1 m2 = None.
Proof.
  destruct run_x as (s1 & st1 & st2 & E & E1 & E2 & Q & C0 & C1 & C2 & P0 & P1 & P2).
  assert (PC : Permutation (concat [nodes hx]) (nodes hx)) by reflexivity.
  destruct (after_bip hx 4 bx (nodes hx) [nodes hx] (edges hx) s1 hx_wf ltac:(lia) (Permutation_refl _) PC (Permutation_refl _) E) as (S1 & K1 & _).
  exists hx, s1, cx, (lx1 ++ lx2), st2, (fun r => if first_pass r then s1 else sh st1). split; [exact S1|]. split; [exact K1|]. split; [exact E2|]. split; [exact Q|]. split.
  - exists [], lx1, lx2. split; [reflexivity|]. split.
    + repeat constructor; cbn; lia.
    + intros r. destruct (first_pass r); [exists (cinit s1 cx); split; reflexivity|exists st1; split; [exact E1|reflexivity]].
  - intros stable ks m1 m2. apply (stray_edge hx 0 false _ stable ks m1 m2 0); [left; reflexivity| |].
    + unfold cond1, pinCountInPart. cbn [first_pass]. rewrite P0, C0. reflexivity.
    + unfold cond2, pinCountInPart. cbn [first_pass]. rewrite P1, C1. reflexivity.
Qed.

(** If both passes see the transient value, a cut hyperedge is kept and its weight may be counted twice. *)
Theorem C25_refuted_keeps_cut_edge : exists H s c l st o ks X mp, started H s /\ pk s = 4%nat /\ crun H 1 no_mops (cinit s c) l = Some st /\ quiescent 1 st /\
  in_order H s c l o 0 /\ ksched_ok (length (es H 0 false o)) (edge_vector H 0 false o) ks /\ extract H 0 (useCutNetSplitting PCut) o true ks (fun x => x) (fun x => x) = Some (X, mp) /\
  block_edges H (part s) 0 false = [] /\ edges X = [0%nat] /\ pins X 0 = [0; 1]%nat.
Proof.
  destruct run_x as (s1 & st1 & st2 & E & E1 & E2 & Q & C0 & C1 & C2 & P0 & P1 & P2).
  assert (PC : Permutation (concat [nodes hx]) (nodes hx)) by reflexivity.
  destruct (after_bip hx 4 bx (nodes hx) [nodes hx] (edges hx) s1 hx_wf ltac:(lia) (Permutation_refl _) PC (Permutation_refl _) E) as (S1 & K1 & Pt).
  set (o := fun _ : rd => sh st1).
  assert (A : Forall (avoids 0) (lx1 ++ lx2)) by (repeat constructor; cbn; lia).
  assert (IO : in_order hx s1 cx (lx1 ++ lx2) o 0).
  { exists lx1, [], lx2. split; [reflexivity|]. split; [exact A|]. intros r. exists st1. rewrite app_nil_r. destruct (first_pass r); split; auto. }
  assert (EC : es hx 0 false o = [0%nat]).
  { unfold es. cbn [edges hx filter]. unfold cond1, pinCountInPart, o. rewrite P1, C1. reflexivity. }
  assert (FA : faithful hx (part s1) 0 o).
  { apply (faithful_moving hx 1 no_mops s1 cx (lx1 ++ lx2) o 0 S1); [lia|]. apply (in_order_observes hx s1 cx _ o 0 st2 E2 IO). }
  assert (BN : forall v, In v (nodes hx) -> in_block (part s1) 0 v = negb (Nat.eqb v 2)).
  { intros v Hv. unfold in_block. rewrite (Pt v Hv). destruct Hv as [<-|[<-|[<-|[]]]]; reflexivity. }
  assert (NS : block_nodes hx (part s1) 0 = [0; 1]%nat).
  { unfold block_nodes. rewrite (filter_ext_in _ (fun v => negb (Nat.eqb v 2))) by exact BN. reflexivity. }
  assert (EV : collect (map (edge_entry hx 0 false o) (es hx 0 false o)) = Some [[0; 1]%nat]).
  { rewrite EC. cbn [map collect]. unfold edge_entry, cond2, pinCountInPart. unfold o at 1 2. rewrite P1, C1. cbn [Z.ltb Z.eqb Z.compare Pos.compare Pos.compare_cont Pos.eqb andb orb].
    rewrite (push_eq hx (part s1) 0 o hx_wf FA 0 (or_introl eq_refl) (pins hx 0)) by auto. cbn [pins hx]. rewrite (filter_ext_in _ (fun v => negb (Nat.eqb v 2))) by (intros v Hv; apply BN; exact Hv).
    cbn [filter negb Nat.eqb map]. unfold at_. rewrite NS. reflexivity. }
  set (ks := seq_ks 1 [[0; 1]%nat]).
  assert (KO : ksched_ok (length (es hx 0 false o)) (edge_vector hx 0 false o) ks) by (unfold edge_vector; rewrite EV, EC; apply seq_ks_ok).
  assert (NO : forallb (no_stray_edge hx 0 false o) (edges hx) && forallb (no_stray_node hx 0 o) (nodes hx) = true).
  { apply andb_true_iff. split; apply forallb_forall.
    - intros e [<-|[]]. unfold no_stray_edge. rewrite EC. apply orb_true_r.
    - intros v Hv. unfold no_stray_node, o_in. rewrite (f_n2 _ _ _ _ FA v Hv), (ns_eq hx (part s1) 0 o FA). destruct (in_block (part s1) 0 v) eqn:Eb; [|reflexivity]. cbn [negb orb]. apply mem_In, in_block_nodes. split; [exact Hv|apply in_block_true; exact Eb]. }
  assert (EX : exists X, extract hx 0 false o true ks (fun x => x) (fun x => x) = Some (X, hn_mapping hx 0 o) /\ edges X = [0%nat] /\ pins X 0 = [0; 1]%nat).
  { unfold extract. rewrite NO, EV, (ns_eq hx (part s1) 0 o FA), NS, EC. cbn [length].
    destruct (C36_construct 2 1 [[0; 1]%nat] (Some (edge_weight hx 0 false o)) (Some (node_weight hx 0 o)) true ks (fun x => x) (fun x => x) (seq_ks_ok 1 [[0; 1]%nat])) as [D1 D2].
    destruct (construct _ _ _ _ _ _ _ _ _) as [X|].
    - exists X. split; [reflexivity|]. destruct (D2 X eq_refl) as (_ & F2 & F3 & _). split; [rewrite F2; reflexivity|]. specialize (F3 0%nat ltac:(lia)). cbn [nth_error] in F3. congruence.
    - exfalso. apply (proj2 D1); [|reflexivity]. split; [reflexivity|]. intros ps [<-|[]]. split; [discriminate|]. intros v [<-|[<-|[]]]; lia. }
  destruct EX as (X & EX & X1 & X2).
  exists hx, s1, cx, (lx1 ++ lx2), st2, o, ks, X, (hn_mapping hx 0 o). split; [exact S1|]. split; [exact K1|]. split; [exact E2|]. split; [exact Q|]. split; [exact IO|]. split; [exact KO|]. split; [exact EX|].
  split; [|split; [exact X1|exact X2]]. unfold block_edges. cbn [edges hx filter]. unfold kept.
  rewrite <- (conn_eq hx s1 0 hx_wf (proj1 (proj2 S1)) (or_introl eq_refl)), C0. rewrite andb_false_r. reflexivity.
Qed.

(** Finding: for soed the weights of hyperedges that are not yet cut are doubled in place; from 2^30 on that leaves the
    int32 range. *)
Theorem C25_soed_overflow H ac e : In e (edges H) -> ac e = false -> 2 ^ 30 <= ew H e -> adaptWeights PSoed H ac false = None.
Proof.
  intros He A W. unfold adaptWeights. cbn [usesAdaptiveWeight nonCutEdgeMultiplier negb Z.eqb Pos.eqb]. replace (forallb _ (edges H)) with false; [reflexivity|].
  symmetry. apply not_true_is_false. rewrite forallb_forall. intros Y. specialize (Y e He). rewrite A in Y. cbn [orb adapt1] in Y. unfold int32, adapt1 in Y. cbn [nonCutEdgeMultiplier] in Y. lia.
Qed.

(** ** A concrete run: the hypotheses of the theorems above are satisfiable with an actually recursive run *)
Example ex_C24_C25 : exists s cost, rb true PCut 4 hx (fun v => if Nat.eqb v 2 then Some 3%nat else None) (fun _ => false) s cost /\
  complete hx (part s) 4 /\ part s 2 = Some 3%nat /\ objective PCut hx (part s) (fun _ => false) = cost.
Proof.
  assert (NW : forall v, In v (nodes hx) -> 0 <= nw hx v) by (intros; cbn; lia). assert (TW : total_weight hx <= MAXW) by (vm_compute; discriminate).
  assert (FX : forall v f, In v (nodes hx) -> (if Nat.eqb v 2 then Some 3%nat else None) = Some f -> (f < 4)%nat) by (intros v f _; destruct (Nat.eqb v 2); [intros [= <-]; lia|discriminate]).
  destruct (C24_always_completes PCut 4 hx (fun v => if Nat.eqb v 2 then Some 3%nat else None) (fun _ => false)) as (s & cost & R); try assumption; [lia|apply hx_wf|discriminate|].
  exists s, cost. split; [exact R|]. destruct (C24_recursive_bipartitioning _ _ _ _ _ _ _ _ R ltac:(lia) hx_wf NW TW FX) as (_ & A & _ & B & _). split; [exact A|]. split; [apply (B 2%nat 3%nat); [cbn; auto|reflexivity]|].
  apply (C25_recursive_bipartitioning _ _ _ _ _ _ _ _ R (or_intror eq_refl) ltac:(lia) hx_wf NW TW FX).
Qed.
