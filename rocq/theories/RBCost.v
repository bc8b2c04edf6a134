(** RBCost.v - the objective of a partition computed by recursive bipartitioning is the sum of the objectives of all its
    bipartitions (the reason for cut-net splitting, cut-net removal and the doubled weights of uncut hyperedges,
    bipartitioning_policy.h, recursive_bipartitioning.cpp:222-238). *)
From Verif Require Import Base Spec SpecLemmas WfCheck PHG PHGProofs Objective GainCache GainCacheProofs Conc ConcProofs ConcMore ConcRun ConcProgress
  PropsA Rollback RollbackProofs Scan Revert Construct EdgeRemoval Restore RestoreProofs RestoreExamples Extract RB.

(** Contribution of a hyperedge with connectivity [lam] per unit of weight when [a] tells that it was already cut above. *)
Definition lam_cost (p : policy) (lam : Z) (a : bool) : Z :=
  if lam <=? 1 then 0
  else if useCutNetSplitting p then (if a then lam - 1 else lam - 2 + nonCutEdgeMultiplier p) else 1.
Definition objective (p : policy) (H : hypergraph) (P : partition) (ac : nat -> bool) : Z :=
  sumZ (fun e => ew H e * lam_cost p (connectivity H P e) (ac e)) (edges H).

(** ** Connectivity of the parts *)
Lemma in_blocks_iff H P e b : In b (blocks_of H P e) <-> exists v, In v (pins H e) /\ P v = Some b.
Proof. rewrite in_blocks_of, pin_count_pos_iff. reflexivity. Qed.

Definition restrict (B : partition) (b : nat) (P : partition) : partition := fun v => if in_block B b v then P v else None.

Lemma conn_two H P e b0 b1 : b0 <> b1 -> (forall v, In v (pins H e) -> P v = Some b0 \/ P v = Some b1) ->
  connectivity H P e = Z.b2z (0 <? pin_count H P e b0) + Z.b2z (0 <? pin_count H P e b1).
Proof.
  intros Ne HP. unfold connectivity.
  assert (E : length (blocks_of H P e) = length ((if 0 <? pin_count H P e b0 then [b0] else []) ++ (if 0 <? pin_count H P e b1 then [b1] else []))).
  { apply NoDup_length_eq; [apply blocks_of_nodup| |].
    - destruct (0 <? _), (0 <? _); cbn; repeat constructor; cbn; intuition congruence.
    - intros b. rewrite in_app_iff. split.
      + intros Hb. pose proof Hb as Hb0. apply in_blocks_iff in Hb. destruct Hb as (v & Hv & E). destruct (HP v Hv) as [Q|Q]; rewrite Q in E; injection E as <-; apply in_blocks_of, Z.ltb_lt in Hb0; rewrite Hb0; cbn; auto.
      + intros [Hb|Hb]; apply in_blocks_of.
        * destruct (Z.ltb_spec 0 (pin_count H P e b0)); [destruct Hb as [<-|[]]; assumption|destruct Hb].
        * destruct (Z.ltb_spec 0 (pin_count H P e b1)); [destruct Hb as [<-|[]]; assumption|destruct Hb]. }
  rewrite E, app_length, Nat2Z.inj_add. destruct (0 <? _), (0 <? _); reflexivity.
Qed.

Lemma conn_sides H B P e b0 b1 K : b0 <> b1 -> (forall v, In v (pins H e) -> B v = Some b0 \/ B v = Some b1) ->
  (forall v q, In v (pins H e) -> P v = Some q -> (B v = Some b0 -> (q < K)%nat) /\ (B v = Some b1 -> (K <= q)%nat)) ->
  connectivity H P e = connectivity H (restrict B b0 P) e + connectivity H (restrict B b1 P) e.
Proof.
  intros Ne HB HP. unfold connectivity.
  assert (R : forall b q, In q (blocks_of H (restrict B b P) e) <-> exists v, In v (pins H e) /\ B v = Some b /\ P v = Some q).
  { intros b q. rewrite in_blocks_iff. unfold restrict. split.
    - intros (v & Hv & E). exists v. split; [exact Hv|]. destruct (in_block B b v) eqn:Eb; [|discriminate]. apply in_block_true in Eb. auto.
    - intros (v & Hv & E & E'). exists v. split; [exact Hv|]. rewrite (proj2 (in_block_true B b v) E). exact E'. }
  assert (E : length (blocks_of H P e) = length (blocks_of H (restrict B b0 P) e ++ blocks_of H (restrict B b1 P) e)).
  { apply NoDup_length_eq; [apply blocks_of_nodup| |].
    - apply NoDup_app_; [apply blocks_of_nodup|apply blocks_of_nodup|]. intros q H0 H1. apply R in H0. apply R in H1. destruct H0 as (v & Hv & B0 & P0). destruct H1 as (w & Hw & B1 & P1).
      pose proof (proj1 (HP v q Hv P0) B0). pose proof (proj2 (HP w q Hw P1) B1). lia.
    - intros q. rewrite in_app_iff, in_blocks_iff, !R. split.
      + intros (v & Hv & E). destruct (HB v Hv); [left|right]; exists v; auto.
      + intros [(v & Hv & _ & E)|(v & Hv & _ & E)]; exists v; auto. }
  rewrite E, app_length. lia.
Qed.

Lemma conn_restrict_bounds H B P e b : (forall v, In v (pins H e) -> P v <> None) -> 0 <= connectivity H (restrict B b P) e <= pin_count H B e b /\
  (0 < pin_count H B e b -> 0 < connectivity H (restrict B b P) e).
Proof.
  intros HC. split; [split; [apply connectivity_nonneg|]|].
  - unfold connectivity, blocks_of, pin_count.
    assert (E : flat_map (fun v => match restrict B b P v with Some c => [c] | None => [] end) (pins H e) = flat_map (fun v => match P v with Some c => [c] | None => [] end) (filter (in_block B b) (pins H e))).
    { induction (pins H e) as [|v l IH]; [reflexivity|]. cbn [flat_map filter]. unfold restrict at 1. rewrite IH by (intros w Hw; apply HC; right; exact Hw). destruct (in_block B b v); reflexivity. }
    rewrite E. set (L := filter _ _). apply inj_le. apply Nat.le_trans with (length (flat_map (fun v => match P v with Some c => [c] | None => [] end) L)).
    + apply NoDup_incl_length; [apply NoDup_nodup|]. intros x Hx. apply nodup_In in Hx. exact Hx.
    + clearbody L. clear. induction L as [|v L IH]; [cbn; lia|]. cbn [flat_map length]. rewrite app_length. destruct (P v); cbn; lia.
  - intros Hp. apply pin_count_pos_iff in Hp. destruct Hp as (v & Hv & Hb). destruct (P v) as [q|] eqn:Eq; [|exfalso; apply (HC v Hv Eq)].
    assert (1 <= connectivity H (restrict B b P) e); [|lia]. apply (connectivity_pos H _ e v q Hv). unfold restrict. rewrite (proj2 (in_block_true B b v) Hb). exact Eq.
Qed.

(** The connectivity of a hyperedge of the extracted hypergraph. *)
Lemma conn_extracted H B b split X mp P Q off i e : extracted H B b split X mp -> wf_hg H ->
  (forall v j q, mp v = Some j -> Q j = Some q -> P v = Some (off + q)%nat) -> (forall j, In j (nodes X) -> Q j <> None) ->
  nth_error (block_edges H B b split) i = Some e -> connectivity X Q i = connectivity H (restrict B b P) e.
Proof.
  intros EX WF HP HQ Ei. pose proof (x_pins _ _ _ _ _ _ EX i e Ei) as Pi. pose proof (nth_error_In _ _ Ei) as He. unfold block_edges in He. apply filter_In in He. destruct He as [He _].
  assert (IP : forall j, In j (pins X i) <-> exists v, In v (pins H e) /\ B v = Some b /\ mp v = Some j).
  { intros j. split.
    - intros Hj. apply (in_map Some) in Hj. rewrite Pi in Hj. apply in_map_iff in Hj. destruct Hj as (v & E & Hv). apply filter_In in Hv. destruct Hv as [Hv Hb]. apply in_block_true in Hb. exists v. auto.
    - intros (v & Hv & Hb & E). assert (Y : In (Some j) (map Some (pins X i))). { rewrite Pi, <- E. apply in_map. apply filter_In. split; [exact Hv|apply in_block_true, Hb]. }
      apply in_map_iff in Y. destruct Y as (j' & E' & Y). injection E' as ->. exact Y. }
  unfold connectivity. f_equal. rewrite <- (map_length (fun q => (off + q)%nat) (blocks_of X Q i)). apply NoDup_length_eq.
  - apply FinFun.Injective_map_NoDup; [intros x y; lia|apply blocks_of_nodup].
  - apply blocks_of_nodup.
  - intros q. rewrite in_map_iff, in_blocks_iff. unfold restrict. split.
    + intros (q' & <- & Hq). apply in_blocks_iff in Hq. destruct Hq as (j & Hj & Eq). apply IP in Hj. destruct Hj as (v & Hv & Hb & E). exists v. split; [exact Hv|]. rewrite (proj2 (in_block_true B b v) Hb). apply (HP v j q' E Eq).
    + intros (v & Hv & Eq). destruct (in_block B b v) eqn:Eb; [|discriminate]. apply in_block_true in Eb.
      assert (Hvn : In v (nodes H)) by (apply (wf_pins_nodes H WF e v He Hv)). assert (Y : In v (block_nodes H B b)) by (apply in_block_nodes; auto). apply In_nth_error in Y. destruct Y as [j Ej].
      pose proof (proj2 (x_map _ _ _ _ _ _ EX v j) Ej) as Ej'.
      assert (Hjn : In j (nodes X)). { rewrite (x_nodes _ _ _ _ _ _ EX). apply in_seq. assert (j < length (block_nodes H B b))%nat by (apply nth_error_Some; congruence). lia. }
      destruct (Q j) as [q'|] eqn:Eq'; [|exfalso; apply (HQ j Hjn Eq')]. exists q'. split; [rewrite (HP v j q' Ej' Eq') in Eq; congruence|]. apply in_blocks_iff. exists j. split; [apply IP; exists v; auto|exact Eq'].
Qed.

(** ** The identity for one hyperedge *)
Lemma edge_additive p a l0 l1 c0 c1 : 0 <= l0 <= c0 -> 0 <= l1 <= c1 -> (0 < c0 -> 0 < l0) -> (0 < c1 -> 0 < l1) ->
  lam_cost p (l0 + l1) a =
    (if 1 <? Z.b2z (0 <? c0) + Z.b2z (0 <? c1) then (if a then 1 else nonCutEdgeMultiplier p) else 0) +
    (if (1 <? c0) && (useCutNetSplitting p || (Z.b2z (0 <? c0) + Z.b2z (0 <? c1) =? 1)) then lam_cost p l0 (if usesAdaptiveWeight p then a || (1 <? Z.b2z (0 <? c0) + Z.b2z (0 <? c1)) else a) else 0) +
    (if (1 <? c1) && (useCutNetSplitting p || (Z.b2z (0 <? c0) + Z.b2z (0 <? c1) =? 1)) then lam_cost p l1 (if usesAdaptiveWeight p then a || (1 <? Z.b2z (0 <? c0) + Z.b2z (0 <? c1)) else a) else 0).
Proof.
  intros B0 B1 P0 P1. unfold lam_cost.
  destruct (Z.ltb_spec 0 c0), (Z.ltb_spec 0 c1); cbn [Z.b2z];
    repeat match goal with |- context [1 <? ?x + ?y] => let v := eval vm_compute in (1 <? x + y) in change (1 <? x + y) with v end;
    repeat match goal with |- context [?x + ?y =? 1] => let v := eval vm_compute in (x + y =? 1) in change (x + y =? 1) with v end;
    destruct p, a; cbn [useCutNetSplitting nonCutEdgeMultiplier usesAdaptiveWeight negb Z.eqb Pos.eqb orb andb];
    destruct (Z.ltb_spec 1 c0), (Z.ltb_spec 1 c1); cbn [andb]; destruct (Z.leb_spec (l0 + l1) 1), (Z.leb_spec l0 1), (Z.leb_spec l1 1); lia.
Qed.

Lemma sumZ_seq_nth {A} (f : nat -> Z) (g : A -> Z) L : (forall i x, nth_error L i = Some x -> f i = g x) -> sumZ f (seq 0 (length L)) = sumZ g L.
Proof.
  revert f. induction L as [|x L IH]; intros f Hf; [reflexivity|]. cbn [length seq sumZ]. rewrite (Hf 0%nat x eq_refl). f_equal. rewrite <- seq_shift, sumZ_map. apply (IH (fun i => f (S i))). intros i y E. apply (Hf (S i)). exact E.
Qed.

(** The objective of an extracted block, summed over the hyperedges of the input. *)
Lemma objective_extracted p H B b X mp P Q off ac ac' : extracted H B b (useCutNetSplitting p) X mp -> wf_hg H ->
  (forall v j q, mp v = Some j -> Q j = Some q -> P v = Some (off + q)%nat) -> (forall j, In j (nodes X) -> Q j <> None) ->
  (forall i e, nth_error (block_edges H B b (useCutNetSplitting p)) i = Some e -> ac' i = ac e) ->
  objective p X Q ac' = sumZ (fun e => if kept H B b (useCutNetSplitting p) e then ew H e * lam_cost p (connectivity H (restrict B b P) e) (ac e) else 0) (edges H).
Proof.
  intros EX WF HP HQ HA. unfold objective. rewrite (x_edges _ _ _ _ _ _ EX), <- sumZ_filter. apply sumZ_seq_nth. intros i e Ei.
  rewrite (x_ew _ _ _ _ _ _ EX i e Ei), (conn_extracted H B b _ X mp P Q off i e EX WF HP HQ Ei), (HA i e Ei). reflexivity.
Qed.

(** ** One bipartition and its two sides *)
(** Sides may be extracted and partitioned further, or stay one block. *)
Inductive side_ok (p : policy) (H : hypergraph) (B P : partition) (ac : nat -> bool) (b off : nat) : Z -> Prop :=
| side_split X mp Q ac' : extracted H B b (useCutNetSplitting p) X mp ->
    (forall v j q, mp v = Some j -> Q j = Some q -> P v = Some (off + q)%nat) -> (forall j, In j (nodes X) -> Q j <> None) ->
    (forall i e, nth_error (block_edges H B b (useCutNetSplitting p)) i = Some e ->
       ac' i = if usesAdaptiveWeight p then ac e || (1 <? connectivity H B e) else ac e) ->
    side_ok p H B P ac b off (objective p X Q ac')
| side_one : (forall v, In v (nodes H) -> B v = Some b -> P v = Some off) -> side_ok p H B P ac b off 0.

Lemma side_sum p H B P ac b off x : wf_hg H -> side_ok p H B P ac b off x ->
  x = sumZ (fun e => if kept H B b (useCutNetSplitting p) e then ew H e * lam_cost p (connectivity H (restrict B b P) e) (if usesAdaptiveWeight p then ac e || (1 <? connectivity H B e) else ac e) else 0) (edges H).
Proof.
  intros WF [X mp Q ac' EX HP HQ HA|HP].
  - apply (objective_extracted p H B b X mp P Q off (fun e => if usesAdaptiveWeight p then ac e || (1 <? connectivity H B e) else ac e) ac' EX WF HP HQ HA).
  - symmetry. apply sumZ_zero. intros e He. destruct (kept H B b _ e); [|reflexivity].
    assert (L : connectivity H (restrict B b P) e <= 1).
    { unfold connectivity. apply (inj_le _ 1). apply (NoDup_incl_length (blocks_of_nodup H (restrict B b P) e) (l' := [off])). intros q Hq. apply in_blocks_iff in Hq. destruct Hq as (v & Hv & E). unfold restrict in E.
      destruct (in_block B b v) eqn:Eb; [|discriminate]. apply in_block_true in Eb. rewrite (HP v (wf_pins_nodes H WF e v He Hv) Eb) in E. injection E as <-. left. reflexivity. }
    unfold lam_cost. destruct (Z.leb_spec (connectivity H (restrict B b P) e) 1); lia.
Qed.

Lemma two_sides p H B P ac b0 b1 K x0 x1 : wf_hg H -> b0 <> b1 -> (forall v, In v (nodes H) -> B v = Some b0 \/ B v = Some b1) ->
  (forall v, In v (nodes H) -> P v <> None) ->
  (forall v q, In v (nodes H) -> P v = Some q -> (B v = Some b0 -> (q < K)%nat) /\ (B v = Some b1 -> (K <= q)%nat)) ->
  side_ok p H B P ac b0 0 x0 -> side_ok p H B P ac b1 K x1 ->
  objective p H P ac = sumZ (fun e => if 1 <? connectivity H B e then ew H e * (if ac e then 1 else nonCutEdgeMultiplier p) else 0) (edges H) + x0 + x1.
Proof.
  intros WF Ne HB HC HP S0 S1. rewrite (side_sum _ _ _ _ _ _ _ _ WF S0), (side_sum _ _ _ _ _ _ _ _ WF S1), <- !sumZ_plus. unfold objective. apply sumZ_ext. intros e He.
  pose proof (fun v Hv => wf_pins_nodes H WF e v He Hv) as PN.
  rewrite (conn_sides H B P e b0 b1 K Ne) by (intros; first [apply HB, PN; assumption|eapply HP; [apply PN; assumption|eassumption]]).
  destruct (conn_restrict_bounds H B P e b0) as [L0 G0]; [intros v Hv; apply HC, PN, Hv|]. destruct (conn_restrict_bounds H B P e b1) as [L1 G1]; [intros v Hv; apply HC, PN, Hv|].
  rewrite (edge_additive p (ac e) _ _ _ _ L0 L1 G0 G1). unfold kept. rewrite (conn_two H B e b0 b1 Ne) by (intros v Hv; apply HB, PN, Hv).
  set (cc := Z.b2z _ + Z.b2z _). destruct (1 <? cc), ((1 <? pin_count H B e b0) && _), ((1 <? pin_count H B e b1) && _); lia.
Qed.

(** ** The additivity theorems for one bipartition, in terms of the objectives *)
Lemma objective_km1 H P ac : (forall e, In e (edges H) -> 1 <= connectivity H P e) -> objective PKm1 H P ac = km1 H P.
Proof. intros L. unfold objective, km1, km1_edge, lam_cost. apply sumZ_ext. intros e He. specialize (L e He). cbn. destruct (Z.leb_spec (connectivity H P e) 1); [replace (connectivity H P e) with 1 by lia; lia|]. destruct (ac e); lia. Qed.
Lemma objective_cut H P ac : objective PCut H P ac = cut H P.
Proof. unfold objective, cut, cut_edge, lam_cost. apply sumZ_ext. intros e He. cbn. destruct (Z.leb_spec (connectivity H P e) 1), (Z.ltb_spec 1 (connectivity H P e)); lia. Qed.
Lemma objective_soed H P : objective PSoed H P (fun _ => false) = soed H P.
Proof. unfold objective, soed, soed_edge, lam_cost. apply sumZ_ext. intros e He. cbn. destruct (Z.leb_spec (connectivity H P e) 1), (Z.ltb_spec 1 (connectivity H P e)); lia. Qed.
Lemma conn_complete H P k : wf_hg H -> complete H P k -> (forall e, In e (edges H) -> pins H e <> []) -> forall e, In e (edges H) -> 1 <= connectivity H P e.
Proof.
  intros WF HC NE e He. destruct (pins H e) as [|v r] eqn:E; [exfalso; apply (NE e He E)|]. destruct (HC v) as (b & Hb & _); [apply (wf_pins_nodes H WF e v He); rewrite E; left; reflexivity|].
  apply (connectivity_pos H P e v b); [rewrite E; left; reflexivity|exact Hb].
Qed.

(** [P] is the k-way partition composed of partitions [Q0], [Q1] of the two extracted sides of [bip]. *)
Record composed (H : hypergraph) (bip : partition) (split : bool) (X0 X1 : hypergraph) (mp0 mp1 : nat -> option nat) (k0 k1 : nat) (Q0 Q1 P : partition) : Prop := {
  co_bip : complete H bip 2;
  co_x0 : extracted H bip 0 split X0 mp0;
  co_x1 : extracted H bip 1 split X1 mp1;
  co_q0 : complete X0 Q0 k0;
  co_q1 : complete X1 Q1 k1;
  co_p0 : forall v i q, mp0 v = Some i -> Q0 i = Some q -> P v = Some q;
  co_p1 : forall v i q, mp1 v = Some i -> Q1 i = Some q -> P v = Some (k0 + q)%nat
}.

Lemma extracted_map H B b split X mp v : extracted H B b split X mp -> In v (nodes H) -> B v = Some b -> exists i, mp v = Some i /\ In i (nodes X).
Proof.
  intros EX Hv Hb. assert (Y : In v (block_nodes H B b)) by (apply in_block_nodes; auto). apply In_nth_error in Y. destruct Y as [i Ei]. exists i. split; [apply (x_map _ _ _ _ _ _ EX), Ei|].
  rewrite (x_nodes _ _ _ _ _ _ EX). apply in_seq. assert (i < length (block_nodes H B b))%nat by (apply nth_error_Some; congruence). lia.
Qed.
Lemma extracted_nonempty H B b split X mp e : extracted H B b split X mp -> In e (edges X) -> pins X e <> [].
Proof.
  intros EX He. rewrite (x_edges _ _ _ _ _ _ EX) in He. apply in_seq in He. destruct (nth_error (block_edges H B b split) e) as [e0|] eqn:E; [|apply nth_error_None in E; lia].
  pose proof (x_pins _ _ _ _ _ _ EX e e0 E) as Pi. pose proof (nth_error_In _ _ E) as Y. unfold block_edges in Y. apply filter_In in Y. destruct Y as [_ K]. unfold kept, pin_count in K. apply andb_true_iff in K. destruct K as [K _]. apply Z.ltb_lt in K.
  intros Q. rewrite Q in Pi. destruct (filter _ _); [cbn in K; lia|discriminate].
Qed.

Lemma composed_objective p H bip X0 X1 mp0 mp1 k0 k1 Q0 Q1 P ac ac0 ac1 : wf_hg H -> composed H bip (useCutNetSplitting p) X0 X1 mp0 mp1 k0 k1 Q0 Q1 P ->
  (forall i e, nth_error (block_edges H bip 0 (useCutNetSplitting p)) i = Some e -> ac0 i = if usesAdaptiveWeight p then ac e || (1 <? connectivity H bip e) else ac e) ->
  (forall i e, nth_error (block_edges H bip 1 (useCutNetSplitting p)) i = Some e -> ac1 i = if usesAdaptiveWeight p then ac e || (1 <? connectivity H bip e) else ac e) ->
  complete H P (k0 + k1) /\
  objective p H P ac = sumZ (fun e => if 1 <? connectivity H bip e then ew H e * (if ac e then 1 else nonCutEdgeMultiplier p) else 0) (edges H)
    + objective p X0 Q0 ac0 + objective p X1 Q1 ac1.
Proof.
  intros WF [CB E0 E1 C0 C1 P0 P1] A0 A1.
  assert (D : forall v, In v (nodes H) -> bip v = Some 0%nat \/ bip v = Some 1%nat). { intros v Hv. destruct (CB v Hv) as (b & -> & Lb). destruct b as [|[|]]; [auto|auto|lia]. }
  assert (V : forall v, In v (nodes H) -> (bip v = Some 0%nat -> exists q, P v = Some q /\ (q < k0)%nat) /\ (bip v = Some 1%nat -> exists q, P v = Some (k0 + q)%nat /\ (q < k1)%nat)).
  { intros v Hv. split; intros Hb.
    - destruct (extracted_map _ _ _ _ _ _ v E0 Hv Hb) as (i & Ei & Hi). destruct (C0 i Hi) as (q & Eq & Lq). exists q. split; [apply (P0 v i q Ei Eq)|exact Lq].
    - destruct (extracted_map _ _ _ _ _ _ v E1 Hv Hb) as (i & Ei & Hi). destruct (C1 i Hi) as (q & Eq & Lq). exists q. split; [apply (P1 v i q Ei Eq)|exact Lq]. }
  split.
  - intros v Hv. destruct (V v Hv) as [V0 V1]. destruct (D v Hv) as [Q|Q]; [destruct (V0 Q) as (q & E & L)|destruct (V1 Q) as (q & E & L)]; rewrite E; eexists; (split; [reflexivity|lia]).
  - apply (two_sides p H bip P ac 0 1 k0 _ _ WF ltac:(discriminate) D).
    + intros v Hv. destruct (V v Hv) as [V0 V1]. destruct (D v Hv) as [Q|Q]; [destruct (V0 Q) as (q & E & L)|destruct (V1 Q) as (q & E & L)]; congruence.
    + intros v q Hv Eq. destruct (V v Hv) as [V0 V1]. split; intros Q; [destruct (V0 Q) as (q' & E & L)|destruct (V1 Q) as (q' & E & L)]; rewrite Eq in E; injection E as ->; lia.
    + apply (side_split p H bip P ac 0 0 X0 mp0 Q0 ac0 E0 P0); [|exact A0]. intros j Hj. destruct (C0 j Hj) as (q & E & _). congruence.
    + apply (side_split p H bip P ac 1 k0 X1 mp1 Q1 ac1 E1 P1); [|exact A1]. intros j Hj. destruct (C1 j Hj) as (q & E & _). congruence.
Qed.

(** C25, one bipartition. *)
Theorem C25_km1_additive H bip X0 X1 mp0 mp1 k0 k1 Q0 Q1 P : wf_hg H -> (forall e, In e (edges H) -> pins H e <> []) ->
  composed H bip true X0 X1 mp0 mp1 k0 k1 Q0 Q1 P -> km1 H P = cut H bip + km1 X0 Q0 + km1 X1 Q1.
Proof.
  intros WF NE Co. destruct (composed_objective PKm1 H bip X0 X1 mp0 mp1 k0 k1 Q0 Q1 P (fun _ => false) (fun _ => false) (fun _ => false) WF Co) as [HC E]; [reflexivity|reflexivity|].
  rewrite (objective_km1 H P) in E by (apply (conn_complete H P (k0 + k1)); assumption). destruct Co as [CB E0 E1 C0 C1 P0 P1].
  rewrite (objective_km1 X0) in E by (apply (conn_complete X0 Q0 k0); [apply E0|exact C0|intros e; apply (extracted_nonempty _ _ _ _ _ _ e E0)]).
  rewrite (objective_km1 X1) in E by (apply (conn_complete X1 Q1 k1); [apply E1|exact C1|intros e; apply (extracted_nonempty _ _ _ _ _ _ e E1)]).
  rewrite E. do 2 f_equal. apply sumZ_ext. intros e _. unfold cut_edge. cbn. destruct (1 <? _); lia.
Qed.
Theorem C25_cut_additive H bip X0 X1 mp0 mp1 k0 k1 Q0 Q1 P : wf_hg H ->
  composed H bip false X0 X1 mp0 mp1 k0 k1 Q0 Q1 P -> cut H P = cut H bip + cut X0 Q0 + cut X1 Q1.
Proof.
  intros WF Co. destruct (composed_objective PCut H bip X0 X1 mp0 mp1 k0 k1 Q0 Q1 P (fun _ => false) (fun _ => false) (fun _ => false) WF Co) as [HC E]; [reflexivity|reflexivity|].
  rewrite !objective_cut in E. rewrite E. do 2 f_equal. apply sumZ_ext. intros e _. unfold cut_edge. cbn. destruct (1 <? _); lia.
Qed.
(** Sum of external degrees: the first cut of a hyperedge counts twice, all further ones once. *)
Theorem C25_soed_additive H bip X0 X1 mp0 mp1 k0 k1 Q0 Q1 P : wf_hg H ->
  composed H bip true X0 X1 mp0 mp1 k0 k1 Q0 Q1 P ->
  soed H P = 2 * cut H bip +
    objective PSoed X0 Q0 (fun i => match nth_error (block_edges H bip 0 true) i with Some e => 1 <? connectivity H bip e | None => false end) +
    objective PSoed X1 Q1 (fun i => match nth_error (block_edges H bip 1 true) i with Some e => 1 <? connectivity H bip e | None => false end).
Proof.
  intros WF Co.
  destruct (composed_objective PSoed H bip X0 X1 mp0 mp1 k0 k1 Q0 Q1 P (fun _ => false)
    (fun i => match nth_error (block_edges H bip 0 true) i with Some e => 1 <? connectivity H bip e | None => false end)
    (fun i => match nth_error (block_edges H bip 1 true) i with Some e => 1 <? connectivity H bip e | None => false end) WF Co) as [HC E];
    [intros i e Ei; cbn in *; rewrite Ei; reflexivity|intros i e Ei; cbn in *; rewrite Ei; reflexivity|].
  rewrite objective_soed in E. rewrite E. do 2 f_equal. unfold cut. rewrite <- sumZ_scale. apply sumZ_ext. intros e _. unfold cut_edge. cbn [nonCutEdgeMultiplier]. destruct (1 <? _); lia.
Qed.

(** ** The whole recursion *)
Theorem C25_recursive_bipartitioning strict p k H fix_ ac s cost : rb strict p k H fix_ ac s cost ->
  useCutNetSplitting p = true \/ strict = true ->
  (2 <= k)%nat -> wf_hg H -> (forall v, In v (nodes H) -> 0 <= nw H v) -> total_weight H <= MAXW ->
  (forall v f, In v (nodes H) -> fix_ v = Some f -> (f < k)%nat) ->
  objective p H (part s) ac = cost.
Proof.
  intros R Hs. induction R as [k H fix_ ac Hn|k H fix_ ac Hb H' bip order chunks eorder s1 n c l st o ks m1 m2 stable X mp so cost A1 HBc HF A2 Po Pc Pe E1 OBS EXT SUBR IH RUN QUI BEG]; intros Hk WF NWP TW HX.
  - unfold objective. apply sumZ_zero. intros e He. assert (Ep : pins H e = []). { destruct (pins H e) as [|v r] eqn:E; [reflexivity|]. exfalso. pose proof (wf_pins_nodes H WF e v He) as Y. rewrite E, Hn in Y. apply Y. left. reflexivity. }
    unfold connectivity, blocks_of. rewrite Ep. cbn. lia.
  - pose proof (rb_step strict p k H fix_ ac Hb H' bip order chunks eorder s1 n c l st o ks m1 m2 stable X mp so cost A1 HBc HF A2 Po Pc Pe E1 OBS EXT SUBR RUN QUI BEG) as RB.
    destruct (C24_recursive_bipartitioning _ _ _ _ _ _ _ _ RB Hk WF NWP TW HX) as (_ & HCf & _).
    destruct (adapt_structure _ _ _ _ _ A1) as (N1 & N2 & N3 & N4 & N5). destruct (adapt_structure _ _ _ _ _ A2) as (M1 & M2 & M3 & M4 & M5).
    rewrite N1 in *. rewrite N2, N3, N4, N5 in *.
    assert (WF' : wf_hg H') by (apply (wf_same H H'); assumption).
    assert (TW' : total_weight H' <= MAXW) by (unfold total_weight in *; rewrite M1, M5; exact TW).
    destruct (after_bip H' k bip order chunks eorder s1 WF' Hk Po Pc Pe E1) as (S1 & K1 & P1).
    assert (BIP : complete H' bip 2) by (intros v Hv; apply HBc; rewrite N1, <- M1; exact Hv).
    assert (FIX : forall v f, In v (nodes H') -> fix_ v = Some f -> (f < k)%nat /\ bip v = Some (side_of_fixed k f)).
    { intros v f Hv Hf. rewrite M1 in Hv. split; [apply (HX v f Hv Hf)|apply (HF v f Hv Hf)]. }
    assert (NWP' : forall v, In v (nodes H') -> 0 <= nw H' v) by (rewrite M1, M5; exact NWP).
    assert (SUB : forall t i q, In t (tasks k) -> part (so t) i = Some q -> (q < snd t)%nat).
    { intros t i q Ht. destruct (rb_range _ _ _ _ _ _ _ _ (SUBR t Ht)) as [Kt Rt]. rewrite <- Kt. apply Rt. }
    pose proof (child_nodes strict p k H' fix_ bip s1 n c l st o ks m1 m2 stable X mp so Hk S1 K1 NWP' TW' BIP P1 FIX OBS EXT RUN QUI BEG SUB) as CN.
    pose proof (child_fix_spec strict p k H' fix_ bip s1 n c l st o ks m1 m2 stable X mp so Hk S1 K1 NWP' TW' BIP P1 FIX OBS EXT RUN QUI BEG SUB) as CF.
    pose proof (child_node_of strict p k H' fix_ bip s1 n c l st o ks m1 m2 stable X mp so Hk S1 K1 NWP' TW' BIP P1 FIX OBS EXT RUN QUI BEG SUB) as CO.
    pose proof (child_weights strict p k H' fix_ bip s1 n c l st o ks m1 m2 stable X mp so Hk S1 K1 NWP' TW' BIP P1 FIX OBS EXT RUN QUI BEG SUB) as CW.
    pose proof (obs_faithful strict p k H' fix_ bip s1 n c l st o ks m1 m2 stable X mp so Hk S1 K1 NWP' TW' BIP P1 FIX OBS EXT RUN QUI BEG SUB) as OF.
    assert (HX' : forall t, In t (tasks k) -> forall i f, In i (nodes (X t)) -> child_fix H' fix_ (mp t) (fst t) (fst t + snd t) i = Some f -> (f < snd t)%nat).
    { intros t Ht i f Hi Hf. destruct (CO t i Ht Hi) as (v & Em & Hv & Hp & _). destruct (CF t v i Ht Em) as [CFa CFb]. rewrite CFa in Hf. destruct (fix_ v) as [g|]; [|discriminate]. injection Hf as <-. specialize (CFb g eq_refl). lia. }
    assert (IHc : forall t, In t (tasks k) -> objective p (X t) (part (so t)) (extracted_ac H' (fst t) (useCutNetSplitting p) (o t) (next_ac p s1 ac)) = cost t).
    { intros t Ht. apply (IH t Ht); [apply (in_tasks k t Hk Ht)|apply (CN t Ht)|apply (CW t Ht)|apply (CW t Ht)|apply (HX' t Ht)]. }
    assert (SC : forall t, In t (tasks k) -> complete (X t) (part (so t)) (snd t)).
    { intros t Ht. apply (C24_recursive_bipartitioning _ _ _ _ _ _ _ _ (SUBR t Ht)); [apply (in_tasks k t Hk Ht)|apply (CN t Ht)|apply (CW t Ht)|apply (CW t Ht)|apply (HX' t Ht)]. }
    destruct (level_result strict p k H' fix_ bip s1 n c l st o ks m1 m2 stable X mp so Hk S1 K1 NWP' TW' BIP P1 FIX OBS EXT RUN QUI BEG SUB SC) as (R1 & R2 & R3 & R4).
    assert (EXX : forall t, In t (tasks k) -> extracted H' (part s1) (fst t) (useCutNetSplitting p) (X t) (mp t) /\
       forall i, extracted_ac H' (fst t) (useCutNetSplitting p) (o t) (next_ac p s1 ac) i = match nth_error (block_edges H' (part s1) (fst t) (useCutNetSplitting p)) i with Some e => next_ac p s1 ac e | None => false end).
    { intros t Ht. destruct (EXT t Ht) as [OK E]. destruct (OF t Ht) as [F FC].
      destruct (extract_ok H' (part s1) (fst t) (useCutNetSplitting p) (o t) WF' F ltac:(intros Q; apply FC; destruct Hs; [congruence|assumption]) stable (ks t) (m1 t) (m2 t) OK) as (X' & E' & EX & EA).
      rewrite E in E'. injection E' as -> ->. split; [exact EX|]. intros i. apply EA. }
    pose proof (kl_bounds k Hk) as KB. pose proof (kl_kr k) as KK.
    assert (SIDE : forall b off, (b = 0%nat /\ off = 0%nat) \/ (b = kl k /\ off = kl k) -> side_ok p H' (part s1) (part (sh st)) ac b off (sumZ (fun t => if Nat.eqb (fst t) b then cost t else 0) (tasks k))).
    { intros b off Hbo. destruct (find (fun t => Nat.eqb (fst t) b) (tasks k)) as [t|] eqn:Ft.
      - apply find_some in Ft. destruct Ft as [Ht Eb]. apply Nat.eqb_eq in Eb.
        assert (Ev : sumZ (fun t0 => if Nat.eqb (fst t0) b then cost t0 else 0) (tasks k) = objective p (X t) (part (so t)) (extracted_ac H' (fst t) (useCutNetSplitting p) (o t) (next_ac p s1 ac))).
        { rewrite (IHc t Ht). clear - Ht Eb Hk KB. unfold tasks in *. destruct (Nat.leb_spec 2 (kl k)), (Nat.leb_spec 2 (kr k)); cbn [andb] in *; cbn [sumZ fst]; cbn [In] in Ht.
          - destruct Ht as [<-|[<-|[]]]; cbn [fst] in Eb; subst b.
            + rewrite Nat.eqb_refl. replace (Nat.eqb (kl k) 0) with false by (symmetry; apply Nat.eqb_neq; lia). lia.
            + rewrite Nat.eqb_refl. replace (Nat.eqb 0 (kl k)) with false by (symmetry; apply Nat.eqb_neq; lia). lia.
          - destruct Ht as [<-|[]]. cbn [fst] in Eb. subst b. rewrite Nat.eqb_refl. lia.
          - destruct Ht.
          - destruct Ht. }
        rewrite Ev. rewrite <- Eb. destruct (EXX t Ht) as [EX EA]. apply (side_split p H' (part s1) (part (sh st)) ac (fst t) off (X t) (mp t) (part (so t)) _ EX).
        + intros v j q Ej Eq. rewrite (R3 t v j q Ht Ej Eq). f_equal. lia.
        + intros j Hj. destruct (SC t Ht j Hj) as (q & E & _). congruence.
        + intros i e Ei. rewrite EA, Ei. unfold next_ac. pose proof (nth_error_In _ _ Ei) as He. unfold block_edges in He. apply filter_In in He. rewrite (conn_eq H' s1 e WF' (proj1 (proj2 S1))) by tauto. reflexivity.
      - assert (Nt : forall t, In t (tasks k) -> fst t <> b). { intros t Ht Q. pose proof (find_none _ _ Ft t Ht) as Y. cbv beta in Y. rewrite Q, Nat.eqb_refl in Y. discriminate. }
        rewrite sumZ_zero; [|intros t Ht; destruct (Nat.eqb_spec (fst t) b) as [Q|Q]; [exfalso; apply (Nt t Ht Q)|reflexivity]].
        apply side_one. intros v Hv Hbv. rewrite (R4 v Hv); [rewrite Hbv; f_equal; lia|]. intros t Ht Q. rewrite Hbv in Q. injection Q as Q. apply (Nt t Ht). congruence. }
    assert (DB : forall v, In v (nodes H') -> part s1 v = Some 0%nat \/ part s1 v = Some (kl k)).
    { intros v Hv. rewrite (P1 v Hv). unfold apply_bip. destruct (bip v) as [[|]|]; auto. }
    assert (RG : forall v q, In v (nodes H') -> part (sh st) v = Some q -> (part s1 v = Some 0%nat -> (q < kl k)%nat) /\ (part s1 v = Some (kl k) -> (kl k <= q)%nat)).
    { intros v q Hv Eq. assert (Y : forall b, part s1 v = Some b -> (exists t q', In t (tasks k) /\ fst t = b /\ q = (fst t + q')%nat /\ (q' < snd t)%nat) \/ q = b).
      { intros b Eb. destruct (in_dec Nat.eq_dec b (map fst (tasks k))) as [Hin|Hnin].
        - left. apply in_map_iff in Hin. destruct Hin as (t & Et & Ht). destruct (EXX t Ht) as [EX _]. destruct (extracted_map _ _ _ _ _ _ v EX Hv) as (i & Ei & Hi); [congruence|].
          destruct (SC t Ht i Hi) as (q' & Eq' & Lq'). exists t, q'. rewrite (R3 t v i q' Ht Ei Eq') in Eq. injection Eq as <-. auto.
        - right. rewrite (R4 v Hv) in Eq; [congruence|]. intros t Ht Q. apply Hnin. rewrite Eb in Q. injection Q as ->. apply in_map, Ht. }
      split; intros Eb; destruct (Y _ Eb) as [(t & q' & Ht & Et & -> & Lq)| -> ]; try lia. destruct (in_tasks k t Hk Ht) as (_ & _ & [[Q1 Q2]|[Q1 Q2]]); lia. }
    pose proof (two_sides p H' (part s1) (part (sh st)) ac 0 (kl k) (kl k) _ _ WF' ltac:(lia) DB
      ltac:(intros v Hv; destruct (HCf v ltac:(rewrite <- M1; exact Hv)) as (q & E & _); congruence) RG (SIDE 0%nat 0%nat ltac:(auto)) (SIDE (kl k) (kl k) ltac:(auto))) as TS.
    assert (OH : objective p H (part (sh st)) ac = objective p H' (part (sh st)) ac).
    { unfold objective. rewrite M2. apply sumZ_ext. intros e _. rewrite (adapt_revert _ _ _ _ _ e A1 A2). unfold connectivity, blocks_of. rewrite M3. reflexivity. }
    rewrite OH, TS, <- Z.add_assoc. f_equal.
    + unfold cut. rewrite N2, M2. apply sumZ_ext. intros e He. unfold cut_edge. rewrite (adapt_weight _ _ _ _ _ e A1), (adapt_revert _ _ _ _ _ e A1 A2).
      assert (CC : connectivity Hb bip e = connectivity H' (part s1) e).
      { pose proof (fun v (Hv : In v (pins H e)) => wf_pins_nodes H WF e v He Hv) as PN.
        rewrite (conn_two Hb bip e 0 1) by (first [discriminate|intros v Hv; rewrite N3 in Hv; destruct (HBc v ltac:(rewrite N1; apply PN, Hv)) as (b & -> & Lb); destruct b as [|[|]]; [auto|auto|lia]]).
        rewrite (conn_two H' (part s1) e 0 (kl k)) by (try lia; intros v Hv; apply DB; rewrite M1; apply PN; rewrite <- M3; exact Hv).
        unfold pin_count. rewrite N3, M3.
        rewrite (filter_ext_in (in_block bip 0) (in_block (part s1) 0) (pins H e)), (filter_ext_in (in_block bip 1) (in_block (part s1) (kl k)) (pins H e)); [reflexivity| |].
        - intros v Hv. unfold in_block. rewrite (P1 v) by (rewrite M1; apply PN, Hv). unfold apply_bip. destruct (HBc v ltac:(rewrite N1; apply PN, Hv)) as (b & -> & Lb). destruct b as [|[|]]; [|rewrite !Nat.eqb_refl; reflexivity|lia].
          destruct (Nat.eqb_spec 0 (kl k)); [lia|reflexivity].
        - intros v Hv. unfold in_block. rewrite (P1 v) by (rewrite M1; apply PN, Hv). unfold apply_bip. destruct (HBc v ltac:(rewrite N1; apply PN, Hv)) as (b & -> & Lb). destruct b as [|[|]]; [reflexivity| |lia].
          destruct (Nat.eqb_spec (kl k) 0); [lia|reflexivity]. }
      rewrite CC. unfold adapt1. destruct (1 <? _), (ac e); lia.
    + rewrite <- sumZ_plus. apply sumZ_ext. intros t Ht. destruct (in_tasks k t Hk Ht) as (_ & _ & [[Q1 Q2]|[Q1 Q2]]); rewrite Q1.
      * rewrite Nat.eqb_refl. replace (Nat.eqb 0 (kl k)) with false by (symmetry; apply Nat.eqb_neq; lia). lia.
      * rewrite Nat.eqb_refl. replace (Nat.eqb (kl k) 0) with false by (symmetry; apply Nat.eqb_neq; lia). lia.
Qed.

(** C25 for the objectives reported to the user: the objective of the k-way partition is the sum of the (weighted) cuts of
    all bipartitions of the recursion. *)
Corollary C25_rb_objectives k H fix_ s cost p : (2 <= k)%nat -> wf_hg H -> (forall e, In e (edges H) -> pins H e <> []) ->
  (forall v, In v (nodes H) -> 0 <= nw H v) -> total_weight H <= MAXW -> (forall v f, In v (nodes H) -> fix_ v = Some f -> (f < k)%nat) ->
  forall strict, rb strict p k H fix_ (fun _ => false) s cost ->
  match p with
  | PKm1 | PSteiner => cost = km1 H (part s)
  | PSoed => cost = soed H (part s)
  | PCut => strict = true -> cost = cut H (part s)
  end.
Proof.
  intros Hk WF NE NWP TW HX strict R.
  pose proof (C25_recursive_bipartitioning _ _ _ _ _ _ _ _ R) as E. destruct (C24_recursive_bipartitioning _ _ _ _ _ _ _ _ R Hk WF NWP TW HX) as (_ & HC & _).
  destruct p.
  - intros ->. rewrite objective_cut in E. symmetry. apply E; auto.
  - rewrite objective_km1 in E by (apply (conn_complete H (part s) k); assumption). symmetry. apply E; auto.
  - rewrite objective_soed in E. symmetry. apply E; auto.
  - assert (E2 : objective PSteiner H (part s) (fun _ => false) = objective PKm1 H (part s) (fun _ => false)) by reflexivity. rewrite E2, objective_km1 in E by (apply (conn_complete H (part s) k); assumption). symmetry. apply E; auto.
Qed.
