(** Extending the number of blocks: the blocks, weights and objective of the
    extended partition.  See Extend.v. *)
From Coq Require Import List Arith Lia Bool ZArith Permutation.
From Verif Require Import Base Spec SpecLemmas WfCheck Construct Extract RB RBCost Deep DeepTree Extend.
Import ListNotations.

(** ** Positions of the new blocks *)
Lemma br_step l b : (b < length l)%nat -> nth (S b) (block_ranges 0 l) 0%nat = (nth b (block_ranges 0 l) 0 + (if (1 <? nth b l 0)%nat then 2 else 1))%nat.
Proof.
  intros L. rewrite !block_ranges_nth by lia. cbn [Nat.add]. rewrite <- split_length.
  assert (E : firstn (S b) l = firstn b l ++ [nth b l 0%nat]).
  { revert b L. induction l as [|x l IH]; intros b L; [cbn in L; lia|]. destruct b; [reflexivity|]. cbn [firstn nth app]. f_equal. apply IH. cbn in L. lia. }
  rewrite E, flat_map_app, app_length. cbn [flat_map]. now rewrite app_nil_r.
Qed.
Lemma br_mono l b c : (b < c <= length l)%nat -> (nth (S b) (block_ranges 0 l) 0 <= nth c (block_ranges 0 l) 0)%nat.
Proof.
  intros [L1 L2]. induction c as [|c IH]; [lia|]. destruct (Nat.eq_dec b c) as [->|N]; [lia|]. specialize (IH ltac:(lia) ltac:(lia)).
  rewrite (br_step l c) by lia. destruct (1 <? nth c l 0)%nat; lia.
Qed.
Lemma br_last l : nth (length l) (block_ranges 0 l) 0%nat = length (flat_map split l).
Proof. rewrite block_ranges_nth by lia. now rewrite firstn_all. Qed.
(** a sum over the new blocks, by parents *)
Lemma sum_children (f : nat -> Z) l :
  sumZ f (seq 0 (length (flat_map split l))) =
  sumZ (fun b => let o := nth b (block_ranges 0 l) 0%nat in f o + (if (1 <? nth b l 0)%nat then f (o + 1)%nat else 0)) (seq 0 (length l)).
Proof.
  assert (G : forall m, (m <= length l)%nat -> sumZ f (seq 0 (nth m (block_ranges 0 l) 0%nat)) =
     sumZ (fun b => let o := nth b (block_ranges 0 l) 0%nat in f o + (if (1 <? nth b l 0)%nat then f (o + 1)%nat else 0)) (seq 0 m)).
  { induction m as [|m IH]; intros L; [destruct l; reflexivity|]. rewrite br_step, seq_S, sumZ_app by lia. rewrite <- IH by lia. cbv zeta. cbn [Nat.add sumZ].
    rewrite seq_app, sumZ_app. destruct (1 <? nth m l 0)%nat; cbn [seq sumZ Nat.add]; rewrite ?Nat.add_1_r; lia. }
  rewrite <- br_last. apply G. lia.
Qed.

Section Apply.
Variables (H : hypergraph) (P : partition) (split_cut : bool) (l : list nat) (mp : nat -> option nat) (Q : nat -> partition).
Hypotheses (WF : wf_hg H) (CP : complete H P (length l)).
Let k := length l.
Let valid b := (1 <? nth b l 0)%nat.
Let o b := nth b (block_ranges 0 l) 0%nat.
Let P' := apply_bipartitions l P mp Q.
(** the bipartitions are complete on the nodes of their blocks *)
Hypothesis HQ : forall v b, In v (nodes H) -> P v = Some b -> valid b = true -> exists i s, mp v = Some i /\ Q b i = Some s /\ (s < 2)%nat.

Definition side (v : nat) : nat := match P v with Some b => if (1 <? nth b l 0)%nat then match mp v with Some i => match Q b i with Some s => s | None => 0%nat end | None => 0%nat end else 0%nat | None => 0%nat end.
Lemma side_spec v b : In v (nodes H) -> P v = Some b -> (b < k)%nat -> P' v = Some (o b + side v)%nat /\ (side v < if valid b then 2 else 1)%nat.
Proof.
  intros Hv Eb Hb. unfold P', apply_bipartitions, side. rewrite Eb. unfold new_block. fold (o b). unfold valid in *.
  destruct (1 <? nth b l 0)%nat eqn:V; [|split; [now rewrite Nat.add_0_r|lia]].
  destruct (HQ v b Hv Eb V) as (i & s & -> & -> & Ls). split; [|lia]. destruct s as [|[|s]]; [reflexivity|reflexivity|lia].
Qed.
Lemma children_disjoint b c s t : (b < k)%nat -> (c < k)%nat -> (s < if valid b then 2 else 1)%nat -> (t < if valid c then 2 else 1)%nat ->
  (o b + s = o c + t)%nat -> b = c /\ s = t.
Proof.
  intros Hb Hc Ls Lt E. pose proof (br_step l b Hb) as Sb. pose proof (br_step l c Hc) as Sc. fold (o b) (valid b) in Sb. fold (o c) (valid c) in Sc.
  destruct (Nat.lt_trichotomy b c) as [L|[L|L]]; [|subst; split; [auto|lia]|]; exfalso.
  - pose proof (br_mono l b c ltac:(unfold k in *; lia)) as M. fold (o c) in M. destruct (valid b), (valid c); lia.
  - pose proof (br_mono l c b ltac:(unfold k in *; lia)) as M. fold (o b) in M. destruct (valid b), (valid c); lia.
Qed.
Lemma in_child v b s : In v (nodes H) -> (b < k)%nat -> (s < if valid b then 2 else 1)%nat ->
  in_block P' (o b + s) v = in_block P b v && (side v =? s)%nat.
Proof.
  intros Hv Hb Ls. destruct (CP v Hv) as (c & Ec & Hc). destruct (side_spec v c Hv Ec Hc) as (E & Lc).
  unfold in_block. rewrite Ec, E. destruct (c =? b)%nat eqn:X.
  - apply Nat.eqb_eq in X. subst c. destruct (side v =? s)%nat eqn:Y; [apply Nat.eqb_eq in Y; subst; now rewrite Nat.eqb_refl|].
    apply Nat.eqb_neq in Y. apply Nat.eqb_neq. lia.
  - apply Nat.eqb_neq in X. apply Nat.eqb_neq. intros Z0. apply X. now apply (children_disjoint c b (side v) s).
Qed.
Lemma in_parent v b : In v (nodes H) -> (b < k)%nat ->
  Z.b2z (in_block P b v) = Z.b2z (in_block P' (o b) v) + (if valid b then Z.b2z (in_block P' (o b + 1) v) else 0).
Proof.
  intros Hv Hb. rewrite <- (Nat.add_0_r (o b)) at 1. rewrite in_child by (auto; destruct (valid b); lia).
  destruct (in_block P b v) eqn:E.
  - apply in_block_true in E. destruct (side_spec v b Hv E Hb) as (_ & L). cbn [andb]. destruct (valid b) eqn:V.
    + rewrite in_child by (auto; rewrite V; lia). rewrite (proj2 (in_block_true P b v) E). destruct (side v) as [|[|x]]; cbn; lia.
    + assert (side v = 0)%nat as -> by lia. reflexivity.
  - cbn [andb]. destruct (valid b) eqn:V; [|reflexivity]. rewrite in_child by (auto; rewrite V; lia). rewrite E. reflexivity.
Qed.

(** the new partition is complete *)
Lemma ext_complete : complete H P' (length (flat_map split l)).
Proof.
  intros v Hv. destruct (CP v Hv) as (b & Eb & Hb). destruct (side_spec v b Hv Eb Hb) as (E & L). exists (o b + side v)%nat. split; [exact E|].
  rewrite <- br_last. pose proof (br_step l b Hb) as S1. fold (o b) (valid b) in S1.
  assert (nth (S b) (block_ranges 0 l) 0 <= nth (length l) (block_ranges 0 l) 0)%nat; [|destruct (valid b); lia].
  apply br_mono. lia.
Qed.
Lemma ext_weight b : (b < k)%nat -> block_weight H P b = block_weight H P' (o b) + (if valid b then block_weight H P' (o b + 1) else 0).
Proof.
  intros Hb. assert (A : forall R q, block_weight H R q = sumZ (fun v => nw H v * Z.b2z (in_block R q v)) (nodes H)).
  { intros R q. rewrite block_weight_sum. apply sumZ_ext. intros v _. destruct (in_block R q v); cbn; lia. }
  rewrite !A. destruct (valid b) eqn:V; [rewrite <- sumZ_plus|rewrite Z.add_0_r]; apply sumZ_ext; intros v Hv; rewrite (in_parent v b Hv Hb), V; lia.
Qed.
Lemma ext_pins e b : In e (edges H) -> (b < k)%nat -> pin_count H P e b = pin_count H P' e (o b) + (if valid b then pin_count H P' e (o b + 1) else 0).
Proof.
  intros He Hb. rewrite !pin_count_sum. destruct (valid b) eqn:V; [rewrite <- sumZ_plus|rewrite Z.add_0_r]; apply sumZ_ext; intros v Hv;
    rewrite (in_parent v b (wf_pins_nodes H WF e v He Hv) Hb), V; lia.
Qed.
(** a bipartition cuts a hyperedge *)
Definition both (e b : nat) : bool := (1 <? nth b l 0)%nat && (0 <? pin_count H P' e (o b)) && (0 <? pin_count H P' e (o b + 1)).
Lemma ext_conn e : In e (edges H) -> connectivity H P' e = connectivity H P e + sumZ (fun b => Z.b2z (both e b)) (seq 0 k).
Proof.
  intros He. rewrite (connectivity_count H P' (length (flat_map split l))).
  2:{ intros v q Hv Eq. destruct (ext_complete v (wf_pins_nodes H WF e v He Hv)) as (q' & E & L). congruence. }
  rewrite (connectivity_count H P k).
  2:{ intros v q Hv Eq. destruct (CP v (wf_pins_nodes H WF e v He Hv)) as (q' & E & L). unfold k. congruence. }
  unfold countb. rewrite sum_children, <- sumZ_plus. apply sumZ_ext. intros b Hb. apply in_seq in Hb. cbv zeta. fold (o b). change (1 <? nth b l 0)%nat with (valid b).
  rewrite (ext_pins e b He) by lia. unfold both. fold (valid b). pose proof (pin_count_nonneg H P' e (o b)). pose proof (pin_count_nonneg H P' e (o b + 1)%nat).
  destruct (valid b); cbn [andb]; [|rewrite Z.add_0_r; cbn; lia].
  destruct (Z.ltb_spec 0 (pin_count H P' e (o b))), (Z.ltb_spec 0 (pin_count H P' e (o b + 1)%nat)), (Z.ltb_spec 0 (pin_count H P' e (o b) + pin_count H P' e (o b + 1)%nat)); cbn; lia.
Qed.
Lemma both_pins e b : In e (edges H) -> (b < k)%nat -> both e b = true -> 1 < pin_count H P e b.
Proof.
  intros He Hb B. unfold both in B. fold (valid b) in B. apply andb_true_iff in B. destruct B as [B B3]. apply andb_true_iff in B. destruct B as [B1 B2].
  rewrite (ext_pins e b He Hb), B1. lia.
Qed.

(** ** The bipartition of an extracted block *)
Section Block.
Variables (b : nat) (ns es : list nat) (X : hypergraph).
Hypotheses (Hb : (b < k)%nat) (V : valid b = true) (BO : block_of H P b split_cut ns es X mp) (CQ : complete X (Q b) 2).

Lemma q_node v i : In v (nodes H) -> P v = Some b -> mp v = Some i -> Q b i = Some (side v).
Proof.
  intros Hv Eb Ei. destruct (HQ v b Hv Eb V) as (j & s & Ej & Es & Ls). rewrite Ei in Ej. injection Ej as <-.
  unfold side. rewrite Eb. unfold valid in V. rewrite V, Ei, Es. reflexivity.
Qed.
Lemma blk_weight s : (s < 2)%nat -> block_weight X (Q b) s = block_weight H P' (o b + s).
Proof.
  intros Ls. rewrite !block_weight_sum. rewrite (b_nodes _ _ _ _ _ _ _ _ BO).
  rewrite (sumZ_seq_nth _ (fun v => if in_block P' (o b + s) v then nw H v else 0)).
  - rewrite (sumZ_perm _ _ _ (b_ns _ _ _ _ _ _ _ _ BO)). unfold block_nodes. rewrite sumZ_filter. apply sumZ_ext. intros v Hv.
    destruct (in_block P b v) eqn:E; [reflexivity|]. rewrite in_child by (auto; rewrite V; lia). rewrite E. reflexivity.
  - intros i v Ei. rewrite (b_nw _ _ _ _ _ _ _ _ BO i v Ei). pose proof (nth_error_In _ _ Ei) as Hv. apply (Permutation_in v (b_ns _ _ _ _ _ _ _ _ BO)) in Hv.
    apply in_block_nodes in Hv. destruct Hv as [Hv Eb]. assert (Em : mp v = Some i) by (now apply (b_map _ _ _ _ _ _ _ _ BO)).
    rewrite in_child by (auto; rewrite V; lia). rewrite (proj2 (in_block_true P b v) Eb). unfold in_block at 1. rewrite (q_node v i Hv Eb Em). reflexivity.
Qed.
Lemma blk_pins i e s : nth_error es i = Some e -> (s < 2)%nat -> pin_count X (Q b) i s = pin_count H P' e (o b + s).
Proof.
  intros Ei Ls. pose proof (b_pins _ _ _ _ _ _ _ _ BO i e Ei) as Pi.
  assert (He : In e (edges H)). { pose proof (nth_error_In _ _ Ei) as Y. apply (Permutation_in e (b_es _ _ _ _ _ _ _ _ BO)) in Y. unfold block_edges in Y. apply filter_In in Y. tauto. }
  unfold pin_count. f_equal.
  assert (F : filter (in_block P' (o b + s)) (pins H e) = filter (fun v => (side v =? s)%nat) (filter (in_block P b) (pins H e))).
  { assert (FF : forall L, (forall v, In v L -> In v (nodes H)) -> filter (in_block P' (o b + s)) L = filter (fun v => (side v =? s)%nat) (filter (in_block P b) L)).
    { induction L as [|v L IH]; intros HL; [reflexivity|]. cbn [filter]. rewrite in_child by (solve [apply HL; left; reflexivity|exact Hb|rewrite V; lia]). rewrite IH by (intros; apply HL; right; auto).
      destruct (in_block P b v); cbn [andb filter]; reflexivity. }
    apply FF. intros v. apply (wf_pins_nodes H WF e v He). }
  rewrite F. clear F.
  assert (G : forall L L', map Some L' = map mp L -> (forall v, In v L -> In v (nodes H) /\ P v = Some b) -> length (filter (in_block (Q b) s) L') = length (filter (fun v => (side v =? s)%nat) L)).
  { induction L as [|v L IH]; intros L' E HL; destruct L' as [|j L']; cbn in E; try discriminate; [reflexivity|]. injection E as E1 E2. symmetry in E1.
    destruct (HL v (or_introl eq_refl)) as (Hv & Eb). cbn [filter]. unfold in_block at 1. rewrite (q_node v j Hv Eb E1). specialize (IH L' E2 ltac:(intros; apply HL; right; auto)).
    destruct (side v =? s)%nat; cbn [length]; lia. }
  apply (G _ _ Pi). intros v Hv. apply filter_In in Hv. destruct Hv as [Hv E]. apply in_block_true in E. split; [apply (wf_pins_nodes H WF e v He Hv)|exact E].
Qed.
Lemma blk_conn i e : nth_error es i = Some e -> (1 <? connectivity X (Q b) i) = both e b.
Proof.
  intros Ei. assert (Hi : In i (edges X)) by (rewrite (b_edges _ _ _ _ _ _ _ _ BO); apply in_seq; assert (i < length es)%nat by (apply nth_error_Some; congruence); lia).
  rewrite (conn_two X (Q b) i 0 1); [|discriminate|].
  - rewrite !(blk_pins i e) by (auto; lia). rewrite Nat.add_0_r. unfold both. fold (valid b). rewrite V. cbn [andb].
    destruct (0 <? pin_count H P' e (o b)), (0 <? pin_count H P' e (o b + 1)); reflexivity.
  - intros j Hj. destruct (CQ j (wf_pins_nodes X (b_wf _ _ _ _ _ _ _ _ BO) i j Hi Hj)) as (q & -> & Lq). destruct q as [|[|q]]; auto. lia.
Qed.
(** the cut of a bipartition, [w]: weights of the hyperedges of the block *)
Lemma blk_cut (w : nat -> Z) X' : edges X' = edges X -> pins X' = pins X -> (forall i e, nth_error es i = Some e -> ew X' i = w e) ->
  cut X' (Q b) = sumZ (fun e => if kept H P b split_cut e && both e b then w e else 0) (edges H).
Proof.
  intros EE EP EW. unfold cut. rewrite EE, (b_edges _ _ _ _ _ _ _ _ BO). rewrite (sumZ_seq_nth _ (fun e => if both e b then w e else 0)).
  - rewrite (sumZ_perm _ _ _ (b_es _ _ _ _ _ _ _ _ BO)). unfold block_edges. rewrite sumZ_filter. apply sumZ_ext. intros e _. destruct (kept H P b split_cut e); reflexivity.
  - intros i e Ei. unfold cut_edge. replace (connectivity X' (Q b) i) with (connectivity X (Q b) i) by (unfold connectivity, blocks_of; now rewrite EP).
    rewrite (blk_conn i e Ei), (EW i e Ei). reflexivity.
Qed.
End Block.
End Apply.

(** ** Theorem: what an extension step does to the partition *)
(** [l]: into how many blocks each block still has to be split.  The blocks with
    more than one are extracted ([X]), the weights of their hyperedges are adapted
    ([Xa]) and they are bipartitioned ([Q], any complete bipartition). *)
Record extension (p : policy) (H : hypergraph) (P : partition) (l : list nat) (no : list nat) (eo : nat -> list nat)
  (X Xa : nat -> hypergraph) (Q : nat -> partition) (P' : partition) : Prop := {
  en_order : Permutation no (nodes H);
  en_edges : forall b, (b < length l)%nat -> Permutation (eo b) (edges H);
  en_extract : forall b, (b < length l)%nat -> (1 < nth b l 0)%nat -> exists stable ks m1 m2,
    (forall evs, all_edge_vector H P (length l) (useCutNetSplitting p) no eo b = Some evs -> ksched_ok (length (hes2block H P (useCutNetSplitting p) eo b)) evs ks) /\
    extract_block H P (length l) (useCutNetSplitting p) no eo b stable ks m1 m2 = Some (X b);
  en_adapt : forall b, (b < length l)%nat -> (1 < nth b l 0)%nat ->
    adaptWeights p (X b) (all_ac H P (useCutNetSplitting p) eo b (fun e => 1 <? connectivity H P e)) false = Some (Xa b);
  en_bip : forall b, (b < length l)%nat -> (1 < nth b l 0)%nat -> complete (Xa b) (Q b) 2;
  en_apply : P' = apply_bipartitions l P (all_mapping P (length l) no) Q
}.

(** The objective function of a policy. *)
Definition metric (p : policy) : hypergraph -> partition -> Z := match p with PCut => cut | PKm1 => km1 | PSoed => soed | PSteiner => km1 end.

Section Step.
Variables (p : policy) (H : hypergraph) (P : partition) (l no : list nat) (eo : nat -> list nat) (X Xa : nat -> hypergraph) (Q : nat -> partition) (P' : partition).
Hypotheses (WF : wf_hg H) (CP : complete H P (length l)) (EN : extension p H P l no eo X Xa Q P').
Let mp := all_mapping P (length l) no.
Let ns b := filter (in_block P b) no.
Let es b := hes2block H P (useCutNetSplitting p) eo b.

Lemma step_block b : (b < length l)%nat -> (1 < nth b l 0)%nat -> block_of H P b (useCutNetSplitting p) (ns b) (es b) (X b) mp.
Proof.
  intros Hb V. destruct (en_extract _ _ _ _ _ _ _ _ _ _ EN b Hb V) as (stable & ks & m1 & m2 & OK & E).
  destruct (C88_extract_all H P (length l) (useCutNetSplitting p) no eo WF (en_order _ _ _ _ _ _ _ _ _ _ EN) (en_edges _ _ _ _ _ _ _ _ _ _ EN) b stable ks m1 m2 Hb OK) as (X' & E' & B & _).
  rewrite E in E'. injection E' as <-. exact B.
Qed.
Lemma step_adapt b : (b < length l)%nat -> (1 < nth b l 0)%nat -> nodes (Xa b) = nodes (X b) /\ edges (Xa b) = edges (X b) /\ pins (Xa b) = pins (X b) /\ nw (Xa b) = nw (X b) /\
  (forall i e, nth_error (es b) i = Some e -> ew (Xa b) i = ew H e * (if 1 <? connectivity H P e then 1 else nonCutEdgeMultiplier p)).
Proof.
  intros Hb V. pose proof (en_adapt _ _ _ _ _ _ _ _ _ _ EN b Hb V) as A. destruct (adapt_structure _ _ _ _ _ A) as (A1 & A2 & A3 & A4 & A5).
  repeat split; auto. intros i e Ei. rewrite (adapt_weight _ _ _ _ _ i A). unfold all_ac. fold (es b). rewrite Ei, (b_ew _ _ _ _ _ _ _ _ (step_block b Hb V) i e Ei).
  destruct (1 <? connectivity H P e); [lia|reflexivity].
Qed.
Lemma step_Q v b : In v (nodes H) -> P v = Some b -> (1 <? nth b l 0)%nat = true -> exists i s, mp v = Some i /\ Q b i = Some s /\ (s < 2)%nat.
Proof.
  intros Hv Eb V. apply Nat.ltb_lt in V. assert (Hb : (b < length l)%nat) by (destruct (CP v Hv) as (c & Ec & Hc); congruence).
  destruct (mapping_some H P (length l) no eo WF (en_order _ _ _ _ _ _ _ _ _ _ EN) v b Hv Eb Hb) as (i & Ei & Li). exists i.
  destruct (en_bip _ _ _ _ _ _ _ _ _ _ EN b Hb V i) as (s & Es & Ls); [|exists s; auto].
  rewrite (proj1 (step_adapt b Hb V)), (b_nodes _ _ _ _ _ _ _ _ (step_block b Hb V)). apply in_seq. unfold ns. unfold ns_ in Li. lia.
Qed.

Lemma both_sum e : In e (edges H) -> let S := sumZ (fun b => Z.b2z (both H P l mp Q e b)) (seq 0 (length l)) in
  connectivity H P' e = connectivity H P e + S /\ 0 <= S <= connectivity H P e.
Proof.
  intros He S. rewrite (en_apply _ _ _ _ _ _ _ _ _ _ EN). split; [apply (ext_conn H P l mp Q WF CP step_Q e He)|].
  unfold S. split; [apply sumZ_nonneg; intros; destruct (both _ _ _ _ _ _ _); cbn; lia|].
  rewrite (connectivity_count H P (length l)) by (intros v q Hv Eq; destruct (CP v (wf_pins_nodes H WF e v He Hv)) as (q' & E & L); congruence).
  unfold countb. apply sumZ_le. intros b Hb. apply in_seq in Hb. destruct (both H P l mp Q e b) eqn:B; [|destruct (0 <? _); cbn; lia].
  assert (1 < pin_count H P e b) by (apply (both_pins H P l mp Q WF CP step_Q e b He); [lia|exact B]). destruct (Z.ltb_spec 0 (pin_count H P e b)); cbn; lia.
Qed.

(** The objective grows by exactly the cuts of the bipartitions. *)
Lemma step_objective : In p [PCut; PKm1; PSoed] ->
  metric p H P' = metric p H P + sumZ (fun b => if (1 <? nth b l 0)%nat then cut (Xa b) (Q b) else 0) (seq 0 (length l)).
Proof.
  intros Hp.
  set (w := fun e => ew H e * (if 1 <? connectivity H P e then 1 else nonCutEdgeMultiplier p)).
  assert (B : sumZ (fun b => if (1 <? nth b l 0)%nat then cut (Xa b) (Q b) else 0) (seq 0 (length l)) =
              sumZ (fun e => sumZ (fun b => if kept H P b (useCutNetSplitting p) e && both H P l mp Q e b then w e else 0) (seq 0 (length l))) (edges H)).
  { rewrite sumZ_swap. apply sumZ_ext. intros b Hb. apply in_seq in Hb. destruct (1 <? nth b l 0)%nat eqn:V.
    - assert (V' : (1 < nth b l 0)%nat) by now apply Nat.ltb_lt. destruct (step_adapt b ltac:(lia) V') as (A1 & A2 & A3 & A4 & A5).
      assert (CX : complete (X b) (Q b) 2) by (intros v Hv; apply (en_bip _ _ _ _ _ _ _ _ _ _ EN b ltac:(lia) V'); rewrite A1; exact Hv).
      apply (blk_cut H P (useCutNetSplitting p) l mp Q WF CP step_Q b (ns b) (es b) (X b) ltac:(lia) V (step_block b ltac:(lia) V') CX w (Xa b) A2 A3 A5).
    - symmetry. apply sumZ_zero. intros e _. unfold both. rewrite V. cbn [andb]. rewrite andb_false_r. reflexivity. }
  assert (KB : forall e, In e (edges H) -> useCutNetSplitting p = true ->
     sumZ (fun b => if kept H P b (useCutNetSplitting p) e && both H P l mp Q e b then w e else 0) (seq 0 (length l)) = w e * sumZ (fun b => Z.b2z (both H P l mp Q e b)) (seq 0 (length l))).
  { intros e He U. rewrite <- sumZ_scale. apply sumZ_ext. intros b Hb. apply in_seq in Hb. rewrite U. unfold kept. cbn [orb]. rewrite andb_true_r.
    destruct (both H P l mp Q e b) eqn:Bo; [|rewrite andb_false_r; cbn; lia].
    assert (1 < pin_count H P e b) by (apply (both_pins H P l mp Q WF CP step_Q e b He); [lia|exact Bo]). destruct (Z.ltb_spec 1 (pin_count H P e b)); cbn; lia. }
  rewrite B. clear B. pose proof both_sum as BS.
  destruct Hp as [Ep|[Ep|[Ep|[]]]]; unfold w in *; clear w; rewrite <- Ep in KB |- *; cbn [metric]; [unfold cut|unfold km1|unfold soed]; rewrite <- sumZ_plus; apply sumZ_ext; intros e He.
  - destruct (BS e He) as (E & S0 & S1). unfold cut_edge. rewrite E.
    set (S := sumZ _ _) in *. transitivity ((if 1 <? connectivity H P e then ew H e else 0) + (if connectivity H P e =? 1 then ew H e * 1 else 0) * S).
    { set (c := connectivity H P e) in *. destruct (Z.ltb_spec 1 c), (Z.ltb_spec 1 (c + S)), (Z.eqb_spec c 1); try lia; assert (S = 0 \/ S = 1) as [->| ->] by lia; lia. }
    f_equal. unfold S. rewrite <- sumZ_scale. apply sumZ_ext.
    intros b Hb. apply in_seq in Hb. unfold kept. cbn [useCutNetSplitting orb]. destruct (both H P l mp Q e b) eqn:Bo; [|rewrite andb_false_r; cbn; lia].
        assert (1 < pin_count H P e b) by (apply (both_pins H P l mp Q WF CP step_Q e b He); [lia|exact Bo]).
        destruct (Z.ltb_spec 1 (pin_count H P e b)); [|lia]. cbn [andb nonCutEdgeMultiplier].
    destruct (Z.eqb_spec (connectivity H P e) 1) as [->|]; cbn; lia.
  - destruct (BS e He) as (E & S0 & S1). rewrite (KB e He eq_refl). unfold km1_edge. rewrite E. cbn [nonCutEdgeMultiplier]. destruct (1 <? connectivity H P e); lia.
  - destruct (BS e He) as (E & S0 & S1). rewrite (KB e He eq_refl). unfold soed_edge. rewrite E. cbn [nonCutEdgeMultiplier].
    set (S := sumZ _ _) in *. set (c := connectivity H P e) in *.
    clearbody S c. destruct (Z.ltb_spec 1 c), (Z.ltb_spec 1 (c + S)); try lia.
    + assert (S = 1 /\ c = 1) as (-> & ->) by lia. lia.
    + assert (S = 0) as -> by lia. lia.
Qed.
End Step.

Theorem C88_extension p H P l no eo X Xa Q P' : wf_hg H -> complete H P (length l) -> In p [PCut; PKm1; PSoed] ->
  extension p H P l no eo X Xa Q P' ->
  let o b := nth b (block_ranges 0 l) 0%nat in
  complete H P' (length (flat_map split l)) /\
  (forall v b, In v (nodes H) -> P v = Some b -> P' v = Some (o b) \/ ((1 < nth b l 0)%nat /\ P' v = Some (o b + 1)%nat)) /\
  (forall b, (b < length l)%nat -> (nth b l 0 <= 1)%nat -> block_weight H P' (o b) = block_weight H P b) /\
  (forall b, (b < length l)%nat -> (1 < nth b l 0)%nat ->
     block_weight H P' (o b) = block_weight (Xa b) (Q b) 0 /\ block_weight H P' (o b + 1) = block_weight (Xa b) (Q b) 1 /\
     block_weight H P' (o b) + block_weight H P' (o b + 1) = block_weight H P b) /\
  metric p H P' = metric p H P + sumZ (fun b => if (1 <? nth b l 0)%nat then cut (Xa b) (Q b) else 0) (seq 0 (length l)).
Proof.
  intros WF CP Hp EN o. pose proof (step_Q p H P l no eo X Xa Q P' WF CP EN) as SQ. pose proof (en_apply _ _ _ _ _ _ _ _ _ _ EN) as EA. split; [|split; [|split; [|split]]].
  - rewrite EA. apply ext_complete; auto.
  - intros v b Hv Eb. assert (Hb : (b < length l)%nat) by (destruct (CP v Hv) as (c & Ec & Hc); congruence).
    destruct (side_spec H P l _ Q SQ v b Hv Eb Hb) as (E & L). rewrite EA, E. fold (o b).
    destruct (1 <? nth b l 0)%nat eqn:V; destruct (side P l _ Q v) as [|[|s]]; try lia; rewrite ?Nat.add_0_r; auto. right. split; [now apply Nat.ltb_lt|reflexivity].
  - intros b Hb V. rewrite EA, (ext_weight H P l _ Q CP SQ b Hb). fold (o b). apply Nat.ltb_ge in V. rewrite V. lia.
  - intros b Hb V. destruct (step_adapt p H P l no eo X Xa Q P' WF EN b Hb V) as (A1 & A2 & A3 & A4 & _).
    assert (V' : (1 <? nth b l 0)%nat = true) by now apply Nat.ltb_lt.
    assert (W : forall s, (s < 2)%nat -> block_weight H P' (o b + s) = block_weight (Xa b) (Q b) s).
    { intros s Ls. unfold block_weight at 2. rewrite A1, A4. fold (block_weight (X b) (Q b) s). rewrite EA. symmetry.
      apply (blk_weight H P (useCutNetSplitting p) l _ Q CP SQ b _ _ (X b) Hb V' (step_block p H P l no eo X Xa Q P' WF EN b Hb V) s Ls). }
    pose proof (W 0%nat ltac:(lia)) as W0. rewrite Nat.add_0_r in W0. repeat split; auto.
    rewrite EA, (ext_weight H P l _ Q CP SQ b Hb). fold (o b). rewrite V'. reflexivity.
  - apply (step_objective p H P l no eo X Xa Q P' WF CP EN Hp).
Qed.

Lemma lsum_firstn_S : forall (l : list nat) b, (b < length l)%nat -> lsum (firstn (S b) l) = (lsum (firstn b l) + nth b l 0)%nat.
Proof.
  induction l as [|x l IH]; intros b L; [cbn in L; lia|]. destruct b; [cbn; lia|]. cbn in L.
  change (firstn (S (S b)) (x :: l)) with (x :: firstn (S b) l). change (firstn (S b) (x :: l)) with (x :: firstn b l). cbn [lsum nth]. rewrite IH by lia. lia.
Qed.

(** On the recursive bipartitioning tree: an extension step leads from the blocks
    of a level to those of the next level, and a node stays in a block whose final
    blocks are among those of its old block. *)
Theorem C88_tree_extension k i p H P no eo X Xa Q P' : (2 <= k)%nat -> (S i < length (rb_levels k))%nat -> wf_hg H -> In p [PCut; PKm1; PSoed] ->
  let l := nth i (rb_levels k) [] in let l' := nth (S i) (rb_levels k) [] in
  complete H P (length l) -> extension p H P l no eo X Xa Q P' ->
  complete H P' (length l') /\
  forall v b q, In v (nodes H) -> P v = Some b -> P' v = Some q ->
    (nth b (targets 0 l) 0 <= nth q (targets 0 l') 0 /\ nth q (targets 0 l') 0 < nth (S q) (targets 0 l') 0 /\ nth (S q) (targets 0 l') 0 <= nth (S b) (targets 0 l) 0)%nat.
Proof.
  intros Hk Hi WF Hp l l' CP EN. destruct (C88_extension p H P l no eo X Xa Q P' WF CP Hp EN) as (A & B & _).
  pose proof (C87_children [] k i) as CH. split.
  - assert (E : l' = flat_map split l); [|rewrite E; exact A]. unfold l', l. rewrite levels_length in Hi by auto. rewrite !levels_nth by lia. reflexivity.
  - intros v b q Hv Eb Eq. assert (Hb : (b < length l)%nat) by (destruct (CP v Hv) as (c & Ec & Hc); congruence).
    specialize (CH b Hk Hi). cbv zeta in CH. fold l l' in CH. destruct CH as (_ & _ & C1 & C2).
    assert (T : nth (S b) (targets 0 l) 0%nat = (nth b (targets 0 l) 0 + nth b l 0)%nat).
    { rewrite !targets_nth by lia. rewrite lsum_firstn_S by exact Hb. lia. }
    destruct (B v b Hv Eb) as [E|(V & E)]; rewrite Eq in E; injection E as ->.
    + destruct (Nat.lt_ge_cases 1 (nth b l 0%nat)) as [V|V].
      * destruct (C1 Hb V) as (D1 & D2 & D3 & D4 & D5 & D6 & D7 & _). rewrite Nat.add_1_r in D6. lia.
      * destruct (C2 Hb V) as (D1 & D2 & D3 & D4 & D5 & D6 & _). lia.
    + destruct (C1 Hb V) as (D1 & D2 & D3 & D4 & D5 & D6 & D7 & _). lia.
Qed.

(** ** Example: two blocks of six nodes; block 0 has to be split, block 1 is
    final.  Hyperedge 2 is cut already, hyperedges 0 and 1 are not, so their
    weights are doubled for the sum of external degrees. *)
Definition eH : hypergraph := mkHG (seq 0 6) (seq 0 4)
  (fun e => match e with 0 => [0;1;2] | 1 => [2;3] | 2 => [2;3;4] | 3 => [0;5] | _ => [] end)%nat
  (fun v => match v with 0 => [0;3] | 1 => [0] | 2 => [0;1;2] | 3 => [1;2] | 4 => [2] | 5 => [3] | _ => [] end)%nat
  (fun v => Z.of_nat v + 1) (fun e => Z.of_nat e + 1).
Definition eP : partition := fun v => Some (if (v <? 4)%nat then 0%nat else 1%nat).
Definition e_no : list nat := [3;0;4;1;5;2]%nat.
Definition e_eo (b : nat) : list nat := [2;0;1;3]%nat.
Definition e_ks : ksched := mkKS [seq 0 3] (events 3 [[3;0];[1;2;3];[3;0]]%nat) (events 3 [[3;0];[1;2;3];[3;0]]%nat).
Definition eX0 : hypergraph := match extract_block eH eP 2 true e_no e_eo 0 false e_ks (fun _ => 0%nat) (fun _ => 0%nat) with Some x => x | None => eH end.
Definition eXa : hypergraph := match adaptWeights PSoed eX0 (all_ac eH eP true e_eo 0 (fun e => 1 <? connectivity eH eP e)) false with Some x => x | None => eH end.
Definition eQ (b : nat) : partition := fun i => Some (if (i =? 1)%nat || (i =? 3)%nat then 0%nat else 1%nat).
Lemma eH_wf : wf_hg eH. Proof. apply wf_hgb_sound; reflexivity. Qed.
Example C88_example : wf_hg eH /\ complete eH eP 2 /\
  exists P', extension PSoed eH eP [2;1]%nat e_no e_eo (fun _ => eX0) (fun _ => eXa) eQ P' /\
    map P' (seq 0 6) = [Some 0; Some 1; Some 0; Some 1; Some 2; Some 2]%nat /\
    map (pins eX0) (seq 0 3) = [[3;0];[1;2;3];[3;0]]%nat /\ map (ew eXa) (seq 0 3) = [3;2;4] /\
    (soed eH eP, cut eXa (eQ 0%nat), soed eH P') = (14, 9, 23).
Proof.
  split; [exact eH_wf|]. split; [intros v _; unfold eP; destruct (v <? 4)%nat; eauto|].
  exists (apply_bipartitions [2;1]%nat eP (all_mapping eP 2 e_no) eQ). split; [|repeat split].
  constructor.
  - apply NoDup_Permutation; [|apply seq_NoDup|]; [repeat constructor; cbn; intuition discriminate|intros x; cbn; intuition].
  - intros b _. apply NoDup_Permutation; [|apply seq_NoDup|]; [repeat constructor; cbn; intuition discriminate|intros x; cbn; intuition].
  - intros b Hb V. destruct b as [|[|b]]; [|cbn in V; lia|cbn in Hb; lia]. exists false, e_ks, (fun _ => 0%nat), (fun _ => 0%nat). split.
    + intros evs E. vm_compute in E. injection E as <-. repeat split; apply Permutation_refl.
    + cbn [length useCutNetSplitting]. unfold eX0. destruct (extract_block _ _ _ _ _ _ _ _ _ _ _) eqn:E; [reflexivity|]. exfalso. vm_compute in E. discriminate.
  - intros b Hb V. destruct b as [|[|b]]; [|cbn in V; lia|cbn in Hb; lia]. cbn [useCutNetSplitting]. unfold eXa.
    destruct (adaptWeights _ _ _ _) eqn:E; [reflexivity|]. exfalso. vm_compute in E. discriminate.
  - intros b Hb V v _. unfold eQ. destruct (_ || _); eauto.
  - reflexivity.
Qed.
