(** VCycle.v - a V-cycle starts from the given partition: block ids become community ids (partition/multilevel.cpp:259-265), every
    coarsening pass clusters within communities (Cluster.v), contracts (Contract.v) and writes the community ids of the coarse
    nodes (static_hypergraph.cpp:390-395), and the community ids of the coarsest hypergraph are taken as the initial partition
    (multilevel.cpp:128-137).  Any number of passes, each with its own number of threads, weight limit and schedule. *)
From Verif Require Import Base Spec Rank Contract ContractProofs Cluster.
From Verif Require Import SpecLemmas WfCheck.

(** static_hypergraph.cpp:392-394, the fine nodes in any order. *)
Definition coarse_com (f : nat -> nat) (com : nat -> nat) (order : list nat) : nat -> nat := fold_left (fun c v => upd c (f v) (com v)) order (fun _ => 0%nat).
(** One level: hypergraph, bound of the node ids, bound of the hyperedge ids, community ids. *)
Record level := mkLevel { l_hg : hypergraph; l_n : nat; l_m : nat; l_com : nat -> nat }.
Record pass := mkPass { p_threads : nat; p_max : Z; p_sched : list clabel; p_contract : csched; p_order : list nat }.
(** coarseningPassImpl, multilevel_coarsener.h:143-222: a finished clustering run and the contraction of its result. *)
Definition pass_ok (kInv : nat) (L : level) (p : pass) (st : cluster_st) : Prop :=
  cl_run (nodes (l_hg L)) (nw (l_hg L)) (l_com L) (p_max p) (p_threads p) (cl_init (nw (l_hg L))) (p_sched p) = Some st /\ cl_done (p_threads p) st /\
  csched_ok (l_hg L) (l_n L) (l_m L) kInv (cid st) (p_contract p) /\ Permutation (p_order p) (nodes (l_hg L)).
Definition next_level (kInv : nat) (L : level) (p : pass) (st : cluster_st) : level :=
  let H' := contract (l_hg L) (l_n L) (l_m L) kInv (cid st) (p_contract p) in
  mkLevel H' (num_coarse (l_hg L) (l_n L) (cid st)) (length (edges H')) (coarse_com (cmap (l_hg L) kInv (cid st)) (l_com L) (p_order p)).
(** [coarsens kInv L L' f]: after some passes the coarsest level is L'; f maps nodes of L to the nodes they are contracted to. *)
Inductive coarsens (kInv : nat) : level -> level -> (nat -> nat) -> Prop :=
| co_stop L : coarsens kInv L L (fun v => v)
| co_pass L L' p st g : pass_ok kInv L p st -> coarsens kInv (next_level kInv L p st) L' g -> coarsens kInv L L' (fun v => g (cmap (l_hg L) kInv (cid st) v)).
Record level_ok (kInv : nat) (L : level) : Prop := {
  lo_wf : wf_hg (l_hg L); lo_nodes : forall v, In v (nodes (l_hg L)) -> (v < l_n L)%nat; lo_edges : forall e, In e (edges (l_hg L)) -> (e < l_m L)%nat;
  lo_inv : (l_n L <= kInv)%nat; lo_pins : forall e, In e (edges (l_hg L)) -> pins (l_hg L) e <> []
}.
(** The partition given by the community ids. *)
Definition com_part (L : level) : partition := fun v => Some (l_com L v).

Lemma coarse_com_spec f com order : (forall u v, In u order -> In v order -> f u = f v -> com u = com v) -> forall v, In v order -> coarse_com f com order (f v) = com v.
Proof.
  unfold coarse_com. generalize (fun _ : nat => 0%nat) as c. induction order as [|a order IH] using rev_ind; intros c C v Hv; [destruct Hv|]. rewrite fold_left_app. cbn [fold_left]. unfold upd. destruct (Nat.eqb_spec (f v) (f a)) as [E|Ne].
  - apply C; [apply in_or_app; right; left; reflexivity|exact Hv|congruence].
  - apply IH; [intros x y Hx Hy; apply C; apply in_or_app; left; assumption|]. apply in_app_or in Hv. destruct Hv as [Hv|[->|[]]]; [exact Hv|congruence].
Qed.

Section Pass.
Variables (kInv : nat) (L : level) (p : pass) (st : cluster_st).
Hypothesis (LO : level_ok kInv L) (PO : pass_ok kInv L p st).
Set Default Proof Using "All".
Lemma pass_pre : contract_pre (l_hg L) (l_n L) (l_m L) kInv (cid st).
Proof.
  destruct LO as [A B C D _], PO as (E & _). constructor; auto. intros v Hv. apply B. apply (C55_clusters_respect_communities _ _ _ _ _ _ _ E v), Hv.
Qed.
Lemma pass_com v : In v (nodes (l_hg L)) -> l_com (next_level kInv L p st) (cmap (l_hg L) kInv (cid st) v) = l_com L v.
Proof.
  intros Hv. destruct PO as (E & _ & Cs & Po). cbn [next_level l_com]. apply coarse_com_spec; [|apply (Permutation_in _ (Permutation_sym Po)), Hv].
  intros x y Hx Hy Exy. apply (Permutation_in _ Po) in Hx, Hy. destruct (C18_contraction_weights _ _ _ _ _ _ pass_pre Cs) as (_ & _ & I & _). apply I in Exy; auto.
  pose proof (C55_clusters_respect_communities _ _ _ _ _ _ _ E) as K. destruct (proj1 (K x) Hx) as [_ K1], (proj1 (K y) Hy) as [_ K2]. congruence.
Qed.
Lemma pass_level : level_ok kInv (next_level kInv L p st).
Proof.
  destruct PO as (E & _ & Cs & Po). destruct (C20_contraction_wellformed _ _ _ _ _ _ pass_pre Cs) as (W & S2 & _). constructor; cbn [next_level l_hg l_n l_m].
  - exact W.
  - intros v Hv. rewrite contract_unfold in Hv. cbn [nodes] in Hv. apply in_seq in Hv. lia.
  - intros e He. rewrite contract_unfold in He |- *. cbn [edges] in *. rewrite seq_length. apply in_seq in He. lia.
  - etransitivity; [|apply (lo_inv kInv L LO)]. unfold num_coarse, rank. etransitivity; [apply filter_length_le_|]. rewrite seq_length. lia.
  - intros e He Ep. specialize (S2 e He). rewrite Ep in S2. cbn in S2. lia.
Qed.
Lemma pass_keeps k : complete (l_hg L) (com_part L) k ->
  let L' := next_level kInv L p st in let f := cmap (l_hg L) kInv (cid st) in
  complete (l_hg L') (com_part L') k /\ (forall v, In v (nodes (l_hg L)) -> In (f v) (nodes (l_hg L')) /\ com_part L' (f v) = com_part L v) /\
  (forall b, block_weight (l_hg L') (com_part L') b = block_weight (l_hg L) (com_part L) b) /\
  cut (l_hg L') (com_part L') = cut (l_hg L) (com_part L) /\ km1 (l_hg L') (com_part L') = km1 (l_hg L) (com_part L) /\ soed (l_hg L') (com_part L') = soed (l_hg L) (com_part L).
Proof.
  intros Cp L' f. destruct PO as (E & _ & Cs & Po). destruct (C18_contraction_weights _ _ _ _ _ _ pass_pre Cs) as (K1 & K2 & K3 & _ & _ & K6).
  assert (Pc : forall v, In v (nodes (l_hg L)) -> com_part L' (f v) = com_part L v) by (intros v Hv; unfold com_part; f_equal; apply pass_com, Hv).
  assert (C' : complete (l_hg L') (com_part L') k). { intros c Hc. destruct (K2 c Hc) as (v & Hv & <-). destruct (Cp v Hv) as (b & Hb & Lb). exists b. split; [|exact Lb]. rewrite <- Hb. apply Pc, Hv. }
  split; [exact C'|]. split; [intros v Hv; split; [apply K1, Hv|apply Pc, Hv]|]. split.
  - intros b. transitivity (block_weight (l_hg L) (fun v => com_part L' (f v)) b); [apply (K6 (com_part L') b)|]. unfold block_weight. f_equal. apply filter_ext_in. intros v Hv. unfold in_block. fold f. rewrite (Pc v Hv). reflexivity.
  - pose proof (C19_contraction_objective _ _ _ _ _ _ pass_pre Cs (com_part L') k (lo_pins kInv L LO) C') as (O1 & O2 & O3).
    assert (X : forall e, In e (edges (l_hg L)) -> connectivity (l_hg L) (fun v => com_part L' (f v)) e = connectivity (l_hg L) (com_part L) e).
    { intros e He. apply connectivity_ext. intros v Hv. apply Pc, (wf_pins_nodes _ (lo_wf kInv L LO) e v He Hv). }
    split; [|split].
    + transitivity (cut (l_hg L) (fun v => com_part L' (f v))); [symmetry; exact O1|]. unfold cut. apply sumZ_ext. intros e He. unfold cut_edge, km1_edge, soed_edge; rewrite (X e He); reflexivity.
    + transitivity (km1 (l_hg L) (fun v => com_part L' (f v))); [symmetry; exact O2|]. unfold km1. apply sumZ_ext. intros e He. unfold cut_edge, km1_edge, soed_edge; rewrite (X e He); reflexivity.
    + transitivity (soed (l_hg L) (fun v => com_part L' (f v))); [symmetry; exact O3|]. unfold soed. apply sumZ_ext. intros e He. unfold cut_edge, km1_edge, soed_edge; rewrite (X e He); reflexivity.
Qed.
End Pass.

(** C59: the initial partition of a V-cycle on the coarsest hypergraph is the given partition: projected to the input it assigns
    every node to its old block, and its block weights, cut, km1 and soed are those of the given partition. *)
Theorem C59_vcycle_starts_from_partition kInv L L' f k : level_ok kInv L -> complete (l_hg L) (com_part L) k -> coarsens kInv L L' f ->
  complete (l_hg L') (com_part L') k /\ (forall v, In v (nodes (l_hg L)) -> In (f v) (nodes (l_hg L')) /\ com_part L' (f v) = com_part L v) /\
  (forall b, block_weight (l_hg L') (com_part L') b = block_weight (l_hg L) (com_part L) b) /\
  cut (l_hg L') (com_part L') = cut (l_hg L) (com_part L) /\ km1 (l_hg L') (com_part L') = km1 (l_hg L) (com_part L) /\ soed (l_hg L') (com_part L') = soed (l_hg L) (com_part L).
Proof.
  intros LO Cp Co. revert LO Cp. induction Co as [L|L L' p st g PO Co IH]; intros LO Cp; [auto 8|].
  destruct (pass_keeps kInv L p st LO PO k Cp) as (A1 & A2 & A3 & A4 & A5 & A6). destruct (IH (pass_level kInv L p st LO PO) A1) as (B1 & B2 & B3 & B4 & B5 & B6).
  split; [exact B1|]. split; [|split; [intros b; rewrite B3; apply A3|rewrite B4, B5, B6; auto]]. intros v Hv. destruct (A2 v Hv) as [V1 V2]. destruct (B2 _ V1) as [V3 V4]. split; [exact V3|]. rewrite V4. exact V2.
Qed.

(** exH with blocks {0,1,2} and {3}: one thread matches 0 with 1, the pass contracts them. *)
Definition ex_com (v : nat) : nat := if Nat.eqb v 3 then 1%nat else 0%nat.
Definition ex_level : level := mkLevel exH 4 3 ex_com.
Definition ex_sched : list clabel := CBegin 0 0 1 :: repeat (CAdv 0 true) 11.
Example ex_C59 : exists p st L' f, pass_ok 7 ex_level p st /\ coarsens 7 ex_level L' f /\ level_ok 7 ex_level /\ complete exH (com_part ex_level) 2 /\
  length (nodes (l_hg L')) = 3%nat /\ f 0%nat = f 1%nat /\ km1 (l_hg L') (com_part L') = km1 exH (com_part ex_level) /\ 0 < km1 exH (com_part ex_level).
Proof.
  assert (V : match cl_run (nodes exH) (nw exH) ex_com 10 1 (cl_init (nw exH)) ex_sched with Some st => map (cid st) [0;1;2;3]%nat = [1;1;2;3]%nat /\ cth st 0%nat = CIdle | None => False end) by (vm_compute; auto).
  destruct (cl_run (nodes exH) (nw exH) ex_com 10 1 (cl_init (nw exH)) ex_sched) as [st|] eqn:E; [|destruct V]. destruct V as [V1 V2]. cbn [map] in V1. injection V1 as I0 I1 I2 I3.
  set (p := mkPass 1 10 ex_sched (canon_sched exH 3 7 (cid st)) (nodes exH)). assert (PO : pass_ok 7 ex_level p st).
  { split; [exact E|]. split; [intros i Hi; cbn in Hi; assert (i = 0%nat) by lia; subst i; exact V2|]. split; [apply canon_sched_ok|apply Permutation_refl]. }
  assert (LO : level_ok 7 ex_level).
  { constructor; [exact exH_wf| | |cbn; lia|]; cbn; intros x Hx; repeat (destruct Hx as [<-|Hx]; [first [lia|discriminate]|]); destruct Hx. }
  assert (Cp : complete exH (com_part ex_level) 2).
  { intros x Hx. cbn in Hx. repeat (destruct Hx as [<-|Hx]; [eexists; split; [reflexivity|cbn; lia]|]). destruct Hx. }
  assert (Co : coarsens 7 ex_level (next_level 7 ex_level p st) (fun v => cmap exH 7 (cid st) v)) by (apply (co_pass 7 ex_level _ p st (fun v => v) PO); apply co_stop).
  exists p, st, (next_level 7 ex_level p st), (fun v => cmap exH 7 (cid st) v). split; [exact PO|]. split; [exact Co|]. split; [exact LO|]. split; [exact Cp|].
  destruct (C59_vcycle_starts_from_partition 7 ex_level _ _ 2 LO Cp Co) as (_ & _ & _ & _ & K & _).
  split; [|split; [|split; [exact K|vm_compute; reflexivity]]].
  - cbn [next_level l_hg]. rewrite contract_unfold. cbn [nodes]. rewrite seq_length. unfold num_coarse, rank. cbn. rewrite I0, I1, I2, I3. reflexivity.
  - unfold cmap. cbn. rewrite I0, I1. reflexivity.
Qed.
