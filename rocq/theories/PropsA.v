(** PropsA.v - statements C01..C10 and C48: the partition data structure, concurrent moves, gain caches.
    Vocabulary: Spec.v (block_weight, pin_count, connectivity, cut, km1, soed, move, balanced, complete). *)
From Verif Require Import Base Spec SpecLemmas WfCheck PHG PHGProofs Objective GainCache GainCacheProofs
  Conc ConcProofs ConcMore ConcRun ConcProgress.

(** A legal use of the API: starting from a freshly constructed object, the history [l] respects the usage
    protocol ([api_run]: setOnlyNodePart calls are followed by initializePartition before other queries), all
    operations name existing nodes, parallel loops visit each node / hyperedge exactly once in some order, and
    no operation leaves the modelled behaviour.  [s] is the resulting state. *)
Definition reachable (H : hypergraph) (k : nat) (l : list phg_op) (s : phg) : Prop :=
  wf_hg H /\ api_run MEmpty l = Some MLive /\ Forall (op_schedule_ok H) l /\ phg_run H (phg_init k) l = Some s.

Lemma reachable_consistent H k l s : reachable H k l s -> consistent H s /\ pk s = k.
Proof.
  intros (WF & Ha & Hf & Hr).
  destruct (history_inv H l MEmpty MLive (phg_init k) s WF) as [C E]; auto.
  simpl. split; [apply only_ids_init|reflexivity].
Qed.

(** C01 *)
Theorem C01_block_weights_exact : forall H k l s, reachable H k l s ->
  (forall b, (b < k)%nat -> partWeight s b = block_weight H (part s) b) /\
  (complete H (part s) k -> sumZ (partWeight s) (seq 0 k) = total_weight H).
Proof.
  intros H k l s R. pose proof R as (WF & _). destruct (reachable_consistent H k l s R) as [C E].
  assert (A : forall b, (b < k)%nat -> partWeight s b = block_weight H (part s) b) by (intros b Hb; apply (c_wt H s C b); lia).
  split; [exact A|]. intros HC.
  rewrite (sumZ_ext _ (block_weight H (part s))) by (intros b Hb; apply in_seq in Hb; apply A; lia).
  unfold total_weight.
  rewrite (sumZ_ext (block_weight H (part s)) (fun b => sumZ (fun v => if in_block (part s) b v then nw H v else 0) (nodes H)))
    by (intros; unfold block_weight; apply sumZ_filter).
  rewrite sumZ_swap. apply sumZ_ext. intros v Hv. destruct (HC v Hv) as (b & Hb & Hk).
  rewrite (sumZ_ext _ (fun c => if Nat.eqb c b then nw H v else 0)).
  - rewrite (sumZ_indicator _ b (fun _ => nw H v)) by apply seq_NoDup. rewrite mem_seq by exact Hk. reflexivity.
  - intros c _. unfold in_block. rewrite Hb, Nat.eqb_sym. reflexivity.
Qed.

(** C02.  isBorderNode reports false for nodes with more than 100000 incident hyperedges (by design, :705-720). *)
Theorem C02_pin_counts_and_connectivity_exact : forall H k l s, reachable H k l s ->
  (forall e b, In e (edges H) -> (b < k)%nat -> pinCountInPart s e b = pin_count H (part s) e b) /\
  (forall e, In e (edges H) -> conn s e = connectivity H (part s) e) /\
  (forall e b, In e (edges H) -> (In b (connectivitySet s e) <-> exists v, In v (pins H e) /\ part s v = Some b)) /\
  (forall e, In e (edges H) -> NoDup (connectivitySet s e)) /\
  (forall v, In v (nodes H) -> numIncidentCutHyperedges H s v =
       Z.of_nat (length (filter (fun e => 1 <? connectivity H (part s) e) (inc H v)))) /\
  (forall v, In v (nodes H) -> Z.of_nat (length (inc H v)) <= 100000 ->
       (isBorderNode H s v = true <-> exists e, In e (inc H v) /\ 1 < connectivity H (part s) e)).
Proof.
  intros H k l s R. pose proof R as (WF & _). destruct (reachable_consistent H k l s R) as [C E].
  assert (HCc : forall e, In e (edges H) -> conn s e = connectivity H (part s) e) by (intros; apply conn_eq; assumption).
  split; [|split; [|split; [|split; [|split]]]].
  - intros e b He Hb. apply (c_pc H s C e b He). lia.
  - exact HCc.
  - intros e b He. unfold connectivitySet. rewrite filter_In, in_seq. split.
    + intros [Hb Hc]. rewrite (c_cs H s C e b He) in Hc by lia. rewrite (c_pc H s C e b He) in Hc by lia.
      apply pin_count_pos_iff. lia.
    + intros (v & Hv & Hb). pose proof (c_part H s C v b Hb) as Hk. split; [lia|].
      rewrite (c_cs H s C e b He Hk), (c_pc H s C e b He Hk). apply Z.ltb_lt, pin_count_pos_iff. eauto.
  - intros e He. apply connectivitySet_nodup.
  - intros v Hv. unfold numIncidentCutHyperedges. rewrite length_filter_sum. apply sumZ_ext. intros e He.
    apply (wf_inc H WF v e Hv) in He. rewrite (HCc e) by tauto. destruct (1 <? _); reflexivity.
  - intros v Hv Hd. unfold isBorderNode, HIGH_DEGREE_THRESHOLD. replace (_ <=? 100000) with true by lia.
    rewrite existsb_exists. split; intros (e & He & Hc); exists e; (split; [exact He|]);
      pose proof (proj1 (wf_inc H WF v e Hv) He) as [He1 _]; rewrite (HCc e He1) in *; lia.
Qed.

(** C03 *)
Theorem C03_move_frame : forall H k l s u from to maxw, reachable H k l s ->
  In u (nodes H) -> part s u = Some from -> from <> to -> (to < k)%nat ->
  exists s' ok sus, changeNodePart H s u from to maxw = Some (s', ok, sus) /\
    (ok = true <-> block_weight H (part s) to + nw H u <= maxw) /\
    (ok = false -> (forall v, part s' v = part s v) /\ (forall b, partWeight s' b = partWeight s b) /\
                   (forall e b, pinCountInPart s' e b = pinCountInPart s e b) /\ (forall e, conn s' e = conn s e) /\ sus = []) /\
    (ok = true -> part s' u = Some to /\ (forall v, v <> u -> part s' v = part s v) /\
       (forall b, (b < k)%nat -> partWeight s' b = partWeight s b + (if Nat.eqb b to then nw H u else 0) - (if Nat.eqb b from then nw H u else 0)) /\
       (forall e b, In e (edges H) -> (b < k)%nat -> pinCountInPart s' e b = pinCountInPart s e b +
          (if mem u (pins H e) then (if Nat.eqb b to then 1 else 0) - (if Nat.eqb b from then 1 else 0) else 0)) /\
       map su_he sus = inc H u).
Proof.
  intros H k l s u from to maxw R Hu Hp Hft Ht. pose proof R as (WF & _). destruct (reachable_consistent H k l s R) as [C E].
  rewrite <- E in Ht. pose proof (c_part H s C u from Hp) as Hf.
  destruct (Z_le_gt_dec (wt s to + nw H u) maxw) as [Hle|Hgt].
  - destruct (change_accept H WF s u from to maxw C Hu Hp Hft Ht Hle) as (s' & E1 & C' & K' & P').
    eexists s', true, _. split; [exact E1|]. rewrite (c_wt H s C to Ht) in Hle. split; [tauto|]. split; [discriminate|]. intros _.
    rewrite P'. split; [apply upd_same|]. split; [intros v Hv; apply upd_other; exact Hv|]. split; [|split].
    + intros b Hb. unfold partWeight. rewrite (c_wt H s' C') by lia. rewrite P', (c_wt H s C) by lia.
      rewrite block_weight_move by (try apply WF; assumption). unfold in_block. rewrite Hp.
      rewrite (Nat.eqb_sym to b), (Nat.eqb_sym from b). destruct (Nat.eqb b to), (Nat.eqb b from); simpl; lia.
    + intros e b He Hb. unfold pinCountInPart. rewrite (c_pc H s' C' e b He) by lia. rewrite P', (c_pc H s C e b He) by lia.
      rewrite pin_count_move by (apply WF; exact He). unfold in_block. rewrite Hp.
      rewrite (Nat.eqb_sym to b), (Nat.eqb_sym from b). destruct (mem u (pins H e)), (Nat.eqb b to), (Nat.eqb b from); simpl; lia.
    + rewrite map_map. simpl. apply map_id.
  - destruct (change_reject H s u from to maxw Hp Hft Ht ltac:(lia)) as (s' & E1 & K' & P' & W' & PC' & CS').
    eexists s', false, _. split; [exact E1|]. rewrite <- (c_wt H s C to Ht). split; [split; [discriminate|lia]|].
    split; [|discriminate]. intros _. unfold partWeight, pinCountInPart, conn. rewrite P', PC', CS', K'. repeat split; auto.
Qed.

(** Concurrent use: [n] threads, each running changeNodePart calls, interleaved by any schedule [l]; [s] is the
    state before.  [cache_updates] is one of km1_mops, cut_mops, soed_mops or (fun _ _ => []). *)
Definition started (H : hypergraph) (s : phg) : Prop := wf_hg H /\ consistent H s /\ complete H (part s) (pk s).

Theorem reachable_started : forall H k l s, reachable H k l s -> complete H (part s) k -> started H s.
Proof.
  intros H k l s R HC. pose proof R as (WF & _). destruct (reachable_consistent H k l s R) as [C E].
  split; [exact WF|]. split; [exact C|]. rewrite E. exact HC.
Qed.

(** C04 *)
Theorem C04_concurrent_moves_consistent : forall H s n cache_updates c l st, started H s ->
  crun H n cache_updates (cinit s c) l = Some st -> quiescent n st ->
  (forall b, (b < pk s)%nat -> partWeight (sh st) b = block_weight H (part (sh st)) b) /\
  (forall e b, In e (edges H) -> (b < pk s)%nat -> pinCountInPart (sh st) e b = pin_count H (part (sh st)) e b) /\
  (forall e, In e (edges H) -> conn (sh st) e = connectivity H (part (sh st)) e) /\
  (forall e b, In e (edges H) -> (b < pk s)%nat -> (In b (connectivitySet (sh st) e) <-> 0 < pin_count H (part (sh st)) e b)) /\
  (forall v, part (sh st) v = replay (part s) (rep st) v).
Proof.
  intros H s n mops c l st (WF & C & HC) E Q.
  destruct (conc_quiescent H n mops WF s c l st C HC E Q) as (K & C' & _ & R).
  split; [|split; [|split; [|split; [|exact R]]]].
  - intros b Hb. apply (c_wt H (sh st) C'). lia.
  - intros e b He Hb. apply (c_pc H (sh st) C' e b He). lia.
  - intros e He. apply conn_eq; assumption.
  - intros e b He Hb. rewrite <- (mem_In b), (mem_connectivitySet H (sh st) e b C' He) by lia. apply Z.ltb_lt.
Qed.

(** C05 (at every reachable state, not only at quiescence). *)
Theorem C05_concurrent_moves_balanced : forall H s n cache_updates c l st (L : nat -> Z), started H s ->
  (forall v, In v (nodes H) -> 0 <= nw H v) ->
  Forall (fun a => match a with Begin _ m => m_max m <= L (m_to m) | Adv _ => True end) l ->
  crun H n cache_updates (cinit s c) l = Some st ->
  (forall b, (b < pk s)%nat -> block_weight H (part (sh st)) b <= Z.max (L b) (block_weight H (part s) b)) /\
  (balanced H (part s) (pk s) L -> balanced H (part (sh st)) (pk s) L).
Proof.
  intros H s n mops c l st L (WF & C & HC) Hw Hl E.
  pose proof (conc_balance H n mops WF s c l st L C HC Hw Hl E) as X. split; [exact X|].
  intros B b Hb. specialize (X b Hb). specialize (B b Hb). lia.
Qed.

(** C06 *)
Theorem C06_attributed_gains_sum : forall H s n cache_updates c l st, started H s ->
  crun H n cache_updates (cinit s c) l = Some st -> quiescent n st ->
  sumZ km1_gain_of (log st) = km1 H (part (sh st)) - km1 H (part s) /\
  sumZ cut_gain_of (log st) = cut H (part (sh st)) - cut H (part s) /\
  sumZ soed_gain_of (log st) = soed H (part (sh st)) - soed H (part s).
Proof.
  intros H s n mops c l st (WF & C & HC) E Q. split; [|split].
  - apply (conc_gains H n mops WF km1_gain_of km1_edge (km1_edge_gain H) (km1_edge_ext H) s c l st C HC E Q).
  - apply (conc_gains H n mops WF cut_gain_of cut_edge (cut_edge_gain H) (cut_edge_ext H) s c l st C HC E Q).
  - apply (conc_gains H n mops WF soed_gain_of soed_edge (soed_edge_gain H) (soed_edge_ext H) s c l st C HC E Q).
Qed.

(** A gain-cache session: initialise the cache on a consistent complete partition (the incident nets of each node
    are processed in arbitrary chunks), then any sequence of moves and recomputations. *)
Definition session (G : gain_policy) (H : hypergraph) (s : phg) (ops : list gc_op) (st' : phg * cache * list nat) : Prop :=
  exists sched c0, (forall u, In u (nodes H) -> Permutation (concat (sched u)) (inc H u)) /\
    Forall (gc_op_ok H) ops /\ gc_run G H (s, initializeGainCache G H s sched c0, []) ops = Some st'.

Lemma C07_aux (G : gain_policy) pt bt all obj
  (HD : delta_exact (gp_delta G) pt bt all)
  (HR : forall H s u, wf_hg H -> consistent H s -> complete H (part s) (pk s) -> In u (nodes H) -> gp_recompute G H s u = pen_of pt H (part s) u)
  (HIp : forall H s e b, wf_hg H -> consistent H s -> complete H (part s) (pk s) -> In e (edges H) -> (b < pk s)%nat -> gp_init_pen G H s b e = ew H e * pt (esize H e) (pin_count H (part s) e b))
  (HIb : forall H s e b, wf_hg H -> consistent H s -> complete H (part s) (pk s) -> In e (edges H) -> pins H e <> [] -> (b < pk s)%nat -> agg b (gp_init_ben G H s e) = ew H e * bt (esize H e) (pin_count H (part s) e b))
  (HO : forall H k P u from to, wf_hg H -> In u (nodes H) -> P u = Some from -> from <> to -> (to < k)%nat -> complete H P k ->
     ben_of bt H P u to - pen_of pt H P u = obj H P - obj H (move P u to)) :
  forall H s ops s' c' dirty, started H s -> session G H s ops (s', c', dirty) ->
  forall u from to, In u (nodes H) -> part s' u = Some from -> from <> to -> (to < pk s)%nat -> (~ In u dirty \/ all = true) ->
  cache_gain c' u to = obj H (part s') - obj H (move (part s') u to).
Proof.
  intros H s ops s' c' dirty (WF & C & HC) (sched & c0 & Hs & Hf & Hr) u from to Hu Hp Hft Ht Hd.
  destruct (session_ok G pt bt all HD HR HIp HIb H s sched c0 ops _ WF C HC Hs Hf Hr) as (C' & HC' & K & CB & CP).
  unfold cache_gain. rewrite (CB u to Hu Ht), (CP u Hu Hd). rewrite K in HC'. eapply HO; eauto.
Qed.

(** C07 *)
Theorem C07_km1_gain_cache_exact : forall H s ops s' c' dirty, started H s -> session km1_policy H s ops (s', c', dirty) ->
  forall u from to, In u (nodes H) -> part s' u = Some from -> from <> to -> (to < pk s)%nat -> ~ In u dirty ->
  cache_gain c' u to = km1 H (part s') - km1 H (move (part s') u to).
Proof.
  intros. eapply (C07_aux km1_policy km1_pt km1_bt false km1 km1_delta_exact km1_HR km1_HIp km1_HIb km1_gain_objective); eauto.
Qed.
(** C08: for cut no recomputation is needed ([dirty] is irrelevant). *)
Theorem C08_cut_gain_cache_exact : forall H s ops s' c' dirty, started H s -> session cut_policy H s ops (s', c', dirty) ->
  forall u from to, In u (nodes H) -> part s' u = Some from -> from <> to -> (to < pk s)%nat ->
  cache_gain c' u to = cut H (part s') - cut H (move (part s') u to).
Proof.
  intros. eapply (C07_aux cut_policy cut_pt cut_bt true cut cut_delta_exact cut_HR cut_HIp cut_HIb cut_gain_objective); eauto.
Qed.
(** C09 *)
Theorem C09_soed_gain_cache_exact : forall H s ops s' c' dirty, started H s -> session soed_policy H s ops (s', c', dirty) ->
  forall u from to, In u (nodes H) -> part s' u = Some from -> from <> to -> (to < pk s)%nat -> ~ In u dirty ->
  cache_gain c' u to = soed H (part s') - soed H (move (part s') u to).
Proof.
  intros. eapply (C07_aux soed_policy soed_pt soed_bt false soed soed_delta_exact soed_HR soed_HIp soed_HIb soed_gain_objective); eauto.
Qed.
(** [dirty] lists only nodes with an accepted move since their last recomputation: exactly what the refiners
    recompute (recomputeInvalidTerms for every moved node). *)
Theorem C07_dirty_only_moved : forall G H ops s0 c0 d0 s c d, gc_run G H (s0, c0, d0) ops = Some (s, c, d) ->
  forall u, In u d -> In u d0 \/ exists from to m, In (GMove u from to m) ops.
Proof.
  intros G H ops. unfold gc_run. induction ops as [|o ops IH]; intros s0 c0 d0 s c d E u Hu; cbn [fold_opt] in E.
  - injection E as <- <- <-. tauto.
  - destruct (gc_step G H (s0, c0, d0) o) as [[[s1 c1] d1]|] eqn:E1; [|discriminate].
    destruct (IH s1 c1 d1 s c d E u Hu) as [Hin|(f & t & m & Hin)]; [|right; exists f, t, m; right; exact Hin].
    destruct o as [v f t m|v]; simpl in E1.
    + destruct (changeNodePartGC G H s0 c0 v f t m) as [[[s2 c2] ok]|]; [|discriminate]. injection E1 as <- <- <-.
      destruct ok; [|tauto]. destruct Hin as [<-|Hin]; [right; exists f, t, m; left; reflexivity|tauto].
    + injection E1 as <- <- <-. left. eapply in_remove; eauto.
Qed.

(** C10 (all three caches). *)
Definition repaired (G : gain_policy) (H : hypergraph) (s : phg) (c : cache) (moved : list nat) : cache :=
  fold_left (recomputeInvalidTerms G H s) moved c.
Definition moved_nodes (st : cst) : list nat := map (fun x => m_u (fst x)) (filter snd (rep st)).

Lemma repaired_ok G pt bt H k s (HR : forall u, In u (nodes H) -> gp_recompute G H s u = pen_of pt H (part s) u) l :
  forall c, incl l (nodes H) -> cache_ok pt bt false H k (part s) c l -> cache_ok pt bt false H k (part s) (repaired G H s c l) [].
Proof.
  unfold repaired. induction l as [|a l IH]; intros c Hi [B P]; simpl.
  - split; [exact B|]. intros v Hv _. apply P; tauto.
  - apply IH; [intros x Hx; apply Hi; right; exact Hx|]. split; [exact B|]. intros v Hv Hd. simpl. unfold upd.
    destruct (Nat.eqb_spec v a) as [->|Hne]; [apply HR; exact Hv|]. apply P; [exact Hv|]. left. intros [->|X]; [congruence|].
    destruct Hd as [Hd|Hd]; [contradiction|discriminate].
Qed.

Lemma moved_in_nodes H n mops s c l st : wf_hg H -> consistent H s -> complete H (part s) (pk s) ->
  crun H n mops (cinit s c) l = Some st -> forall m b, In (m, b) (rep st) -> In (m_u m) (nodes H).
Proof.
  intros WF C HC E.
  assert (X : forall l st0 eff, Base H (pk s) n st0 eff -> (forall m b, In (m, b) (rep st0) -> In (m_u m) (nodes H)) ->
      crun H n mops st0 l = Some st -> forall m b, In (m, b) (rep st) -> In (m_u m) (nodes H)).
  { clear E. unfold crun. induction l0 as [|a l0 IH]; intros st0 eff B R E; simpl in E.
    - injection E as <-. exact R.
    - destruct (cstep H n mops st0 a) as [st1|] eqn:E1; [|discriminate]. eapply IH; [| |exact E].
      + eapply step_base; eauto.
      + destruct (step_tr H n mops st0 a st1 eff E1) as (i & t & Hi & Et & T).
        destruct T; try (match goal with E : rep _ = rep _ |- _ => rewrite E; exact R end);
          match goal with E : rep _ = _ :: _ |- _ => rewrite E end; intros m0 b0 [X|X]; try (eapply R; eauto; fail);
          injection X as <- <-; (eapply b_mv; [exact B|exact Hi|]); rewrite H0; reflexivity. }
  eapply X; [eapply base_init; eauto|intros m b []|exact E].
Qed.

Lemma C10_aux (G : gain_policy) mops pt bt all obj
  (HD : delta_exact (gp_delta G) pt bt all)
  (HR : forall H s u, wf_hg H -> consistent H s -> complete H (part s) (pk s) -> In u (nodes H) -> gp_recompute G H s u = pen_of pt H (part s) u)
  (HIp : forall H s e b, wf_hg H -> consistent H s -> complete H (part s) (pk s) -> In e (edges H) -> (b < pk s)%nat -> gp_init_pen G H s b e = ew H e * pt (esize H e) (pin_count H (part s) e b))
  (HIb : forall H s e b, wf_hg H -> consistent H s -> complete H (part s) (pk s) -> In e (edges H) -> pins H e <> [] -> (b < pk s)%nat -> agg b (gp_init_ben G H s e) = ew H e * bt (esize H e) (pin_count H (part s) e b))
  (HO : forall H k P u from to, wf_hg H -> In u (nodes H) -> P u = Some from -> from <> to -> (to < k)%nat -> complete H P k ->
     ben_of bt H P u to - pen_of pt H P u = obj H P - obj H (move P u to))
  (HCC : forall H n s c l st, wf_hg H -> consistent H s -> complete H (part s) (pk s) -> cache_ok pt bt all H (pk s) (part s) c [] ->
     crun H n mops (cinit s c) l = Some st -> quiescent n st ->
     cache_ok pt bt all H (pk s) (part (sh st)) (gc st) (moved_nodes st)) :
  forall H s n sched c0 l st, started H s ->
  (forall u, In u (nodes H) -> Permutation (concat (sched u)) (inc H u)) ->
  crun H n mops (cinit s (initializeGainCache G H s sched c0)) l = Some st -> quiescent n st ->
  forall u from to, In u (nodes H) -> part (sh st) u = Some from -> from <> to -> (to < pk s)%nat ->
  (~ In u (moved_nodes st) -> cache_gain (gc st) u to = obj H (part (sh st)) - obj H (move (part (sh st)) u to)) /\
  cache_gain (repaired G H (sh st) (gc st) (moved_nodes st)) u to = obj H (part (sh st)) - obj H (move (part (sh st)) u to).
Proof.
  intros H s n sched c0 l st (WF & C & HC) Hs E Q u from to Hu Hp Hft Ht.
  destruct (session_ok G pt bt all HD HR HIp HIb H s sched c0 [] _ WF C HC Hs (Forall_nil _) eq_refl) as (_ & _ & _ & CO).
  pose proof (HCC H n s _ l st WF C HC CO E Q) as [CB CP].
  destruct (conc_quiescent H n mops WF s _ l st C HC E Q) as (K & C' & HC' & _).
  split.
  - intros Hm. unfold cache_gain. rewrite (CB u to Hu Ht), (CP u Hu (or_introl Hm)). eapply HO; eauto.
  - assert (RO : cache_ok pt bt false H (pk s) (part (sh st)) (repaired G H (sh st) (gc st) (moved_nodes st)) []).
    { apply repaired_ok.
      - intros v Hv. apply HR; auto. rewrite K. exact HC'.
      - intros v Hv. unfold moved_nodes in Hv. apply in_map_iff in Hv. destruct Hv as ([m b] & <- & Hin). apply filter_In in Hin.
        apply (moved_in_nodes H n mops s _ l st WF C HC E m b). apply Hin.
      - split; [exact CB|]. intros v Hv [Hd|Hd]; [|discriminate]. apply CP; tauto. }
    destruct RO as [RB RP]. unfold cache_gain. rewrite (RB u to Hu Ht), (RP u Hu (or_introl (fun x => x))). eapply HO; eauto.
Qed.

Theorem C10_km1_cache_concurrent : forall H s n sched c0 l st, started H s ->
  (forall u, In u (nodes H) -> Permutation (concat (sched u)) (inc H u)) ->
  crun H n km1_mops (cinit s (initializeGainCache km1_policy H s sched c0)) l = Some st -> quiescent n st ->
  forall u from to, In u (nodes H) -> part (sh st) u = Some from -> from <> to -> (to < pk s)%nat ->
  (~ In u (moved_nodes st) -> cache_gain (gc st) u to = km1 H (part (sh st)) - km1 H (move (part (sh st)) u to)) /\
  cache_gain (repaired km1_policy H (sh st) (gc st) (moved_nodes st)) u to = km1 H (part (sh st)) - km1 H (move (part (sh st)) u to).
Proof.
  apply (C10_aux km1_policy km1_mops km1_pt km1_bt false km1 km1_delta_exact km1_HR km1_HIp km1_HIb km1_gain_objective).
  intros H n s c l st WF C HC CO E Q.
  refine (conc_cache H n km1_mops WF km1_pt km1_bt false (km1_Hben H) (km1_Hpen H) (km1_Hpen0 H) _ s c l st C HC CO E Q). discriminate.
Qed.
Theorem C10_cut_cache_concurrent : forall H s n sched c0 l st, started H s ->
  (forall u, In u (nodes H) -> Permutation (concat (sched u)) (inc H u)) ->
  crun H n cut_mops (cinit s (initializeGainCache cut_policy H s sched c0)) l = Some st -> quiescent n st ->
  forall u from to, In u (nodes H) -> part (sh st) u = Some from -> from <> to -> (to < pk s)%nat ->
  (~ In u (moved_nodes st) -> cache_gain (gc st) u to = cut H (part (sh st)) - cut H (move (part (sh st)) u to)) /\
  cache_gain (repaired cut_policy H (sh st) (gc st) (moved_nodes st)) u to = cut H (part (sh st)) - cut H (move (part (sh st)) u to).
Proof.
  apply (C10_aux cut_policy cut_mops cut_pt cut_bt true cut cut_delta_exact cut_HR cut_HIp cut_HIb cut_gain_objective).
  intros H n s c l st WF C HC CO E Q.
  exact (conc_cache H n cut_mops WF cut_pt cut_bt true (cut_Hben H) (cut_Hpen H) (cut_Hpen0 H) (fun _ => cut_Hall H) s c l st C HC CO E Q).
Qed.
Theorem C10_soed_cache_concurrent : forall H s n sched c0 l st, started H s ->
  (forall u, In u (nodes H) -> Permutation (concat (sched u)) (inc H u)) ->
  crun H n soed_mops (cinit s (initializeGainCache soed_policy H s sched c0)) l = Some st -> quiescent n st ->
  forall u from to, In u (nodes H) -> part (sh st) u = Some from -> from <> to -> (to < pk s)%nat ->
  (~ In u (moved_nodes st) -> cache_gain (gc st) u to = soed H (part (sh st)) - soed H (move (part (sh st)) u to)) /\
  cache_gain (repaired soed_policy H (sh st) (gc st) (moved_nodes st)) u to = soed H (part (sh st)) - soed H (move (part (sh st)) u to).
Proof.
  apply (C10_aux soed_policy soed_mops soed_pt soed_bt false soed soed_delta_exact soed_HR soed_HIp soed_HIb soed_gain_objective).
  intros H n s c l st WF C HC CO E Q.
  refine (conc_cache H n soed_mops WF soed_pt soed_bt false (soed_Hben H) (soed_Hpen H) (soed_Hpen0 H) _ s c l st C HC CO E Q). discriminate.
Qed.

(** C48: no deadlock, and bounded work. *)
Theorem C48_no_deadlock : forall H s n cache_updates c l st, started H s ->
  crun H n cache_updates (cinit s c) l = Some st -> ~ quiescent n st -> exists i st', cstep H n cache_updates st (Adv i) = Some st'.
Proof. intros H s n mops c l st (WF & C & HC). apply progress; assumption. Qed.
Theorem C48_moves_terminate : forall H n st, exists bound, forall l st',
  Forall (fun a => exists i, a = Adv i) l ->
  (crun H n km1_mops st l = Some st' \/ crun H n cut_mops st l = Some st' \/ crun H n soed_mops st l = Some st') ->
  (length l <= bound)%nat.
Proof.
  intros H n st. exists (work H n st). intros l st' F [E|[E|E]].
  - eapply bounded_steps; eauto. apply km1_Hcost.
  - eapply bounded_steps; eauto. apply cut_Hcost.
  - eapply bounded_steps; eauto. apply soed_Hcost.
Qed.

(** ---------- the hypotheses are met by concrete executions ---------- *)
Definition ex_ops : list phg_op :=
  [OSetOnly 0 0; OSetOnly 1 0; OSetOnly 2 1; OSetOnly 3 1; OInit [[0;1];[2;3]] [2;0;1];
   OChange 2 1 0 10; OChange 3 1 0 2]%nat.
Definition ex_state : phg := match phg_run exH (phg_init 2) ex_ops with Some s => s | None => phg_init 0 end.
Lemma ex_reachable : reachable exH 2 ex_ops ex_state.
Proof.
  split; [apply exH_wf|]. split; [reflexivity|]. split.
  2: { unfold ex_state. assert (X : match phg_run exH (phg_init 2) ex_ops with Some _ => true | None => false end = true)
         by (vm_compute; reflexivity). destruct (phg_run exH (phg_init 2) ex_ops); [reflexivity|discriminate]. }
  assert (P : Permutation [2;0;1]%nat (edges exH)).
  { simpl. apply perm_trans with [0;2;1]%nat; [apply perm_swap|]. apply perm_skip, perm_swap. }
  repeat (apply Forall_cons; [try (simpl; tauto)|]); [|apply Forall_nil]. split; [apply Permutation_refl|exact P].
Qed.
Example ex_C01 : map (partWeight ex_state) [0;1]%nat = [4;3] /\ map (conn ex_state) [0;1;2]%nat = [1;2;2]
  /\ part ex_state 2%nat = Some 0%nat /\ part ex_state 3%nat = Some 1%nat.
Proof. vm_compute. repeat split; reflexivity. Qed.
Lemma ex_started : started exH ex_state.
Proof.
  eapply reachable_started; [apply ex_reachable|]. intros v Hv. simpl in Hv.
  destruct Hv as [<-|[<-|[<-|[<-|[]]]]]; [exists 0%nat|exists 0%nat|exists 0%nat|exists 1%nat]; (split; [vm_compute; reflexivity|lia]).
Qed.
(** Two threads move 0 and 3 concurrently; the schedule interleaves them inside hyperedge 2, and a third move is
    rejected. *)
Definition ex_sched : list label :=
  [Begin 0 (mkMv 0 0 1 10); Begin 1 (mkMv 3 1 0 10); Adv 0; Adv 1; Adv 0; Adv 1; Adv 1; Adv 1; Adv 1; Adv 1; Adv 0; Adv 0; Adv 0]%nat
  ++ Begin 2 (mkMv 2 0 1 0)%nat :: Adv 2%nat :: flat_map (fun _ => [Adv 0; Adv 1]%nat) (seq 0 10) ++ [Adv 1; Adv 1; Adv 0; Adv 0; Adv 1; Adv 0]%nat.
Definition exec_greedy (n : nat) mops (st : cst) (l : list label) : cst :=
  fold_left (fun st a => match cstep exH n mops st a with Some st' => st' | None => st end) l st.
(** greedy execution of enabled labels only = a legal schedule *)
Lemma greedy_legal n mops l : forall st, exists l', incl l' l /\ crun exH n mops st l' = Some (exec_greedy n mops st l).
Proof.
  unfold crun, exec_greedy. induction l as [|a l IH]; intros st; simpl; [exists []; split; [intros x []|reflexivity]|].
  destruct (cstep exH n mops st a) as [st1|] eqn:E.
  - destruct (IH st1) as (l' & Hi & El). exists (a :: l'). split.
    + intros x [->|Hx]; [left; reflexivity|right; apply Hi; exact Hx].
    + simpl. rewrite E. exact El.
  - destruct (IH st) as (l' & Hi & El). exists l'. split; [intros x Hx; right; apply Hi; exact Hx|exact El].
Qed.
Definition ex_cache : cache := initializeGainCache km1_policy exH ex_state (fun u => [inc exH u]) (mkCache (fun _ => 0) (fun _ _ => 0)).
Definition ex_final : cst := exec_greedy 3 km1_mops (cinit ex_state ex_cache) (ex_sched ++ flat_map (fun _ => [Adv 0; Adv 1; Adv 2]%nat) (seq 0 40)).
Example ex_concurrent : quiescent 3 ex_final.
Proof. intros i Hi. destruct i as [|[|[|i]]]; [vm_compute; reflexivity..|lia]. Qed.
Example ex_concurrent_values :
  map (part (sh ex_final)) [0;1;2;3]%nat = [Some 1; Some 0; Some 0; Some 0]%nat /\ length (rep ex_final) = 3%nat /\
  length (log ex_final) = 4%nat /\ sumZ km1_gain_of (log ex_final) = -1 /\
  map (fun u => cache_gain (gc ex_final) u 1%nat) [1;2]%nat = [0; -3].
Proof. vm_compute. repeat split; reflexivity. Qed.
