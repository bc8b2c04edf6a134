(** Mapping the blocks of a partition to the nodes of a target graph: contraction
    of the blocks, repair of empty blocks and application of the result.

    /repo/mt-kahypar/partition/mapping/initial_mapping.cpp:140-176 and 178-257.
    The contraction is that of Contract.v, the mapping that of KLMap.v and
    GreedyMap.v.

    Simplifications: [dist] is the weight of a set of blocks in the target graph
    (KLMap.v); integers are unbounded; every enabled node has a block; the
    incident nets of the hypergraph that repairEmptyBlocks constructs are in
    ascending order (the factory may write them in any order); an entry of
    block_mapping that is never written, and an access outside of it, give
    kInvalidHypernode [kInv]. *)
From Coq Require Import List Arith Lia Bool ZArith Permutation.
From Verif Require Import Base Spec SpecLemmas Rank Contract ContractProofs KLMap KLMapThms GreedyMap WfCheck.
Import ListNotations.

Definition block_of (P : partition) (v : nat) : nat := match P v with Some b => b | None => 0%nat end.

Section Model.
Variables (H : hypergraph) (n m kInv k : nat) (P : partition) (s : csched).
(** 189-196: the labels given to contract *)
Definition labels (v : nat) : nat := if (k <=? n)%nat then block_of P v else v.
(** 201 *)
Definition contracted : hypergraph := contract H n m kInv labels s.
(** 149-156: block_mapping, the blocks with a positive weight in ascending order *)
Definition nonempty_blocks : list nat := filter (fun b => 0 <? block_weight H P b) (seq 0 k).
Definition block_mapping (c : nat) : nat := nth c nonempty_blocks kInv.
(** 159-176 repairEmptyBlocks *)
Definition repaired : hypergraph :=
  mkHG (seq 0 k) (edges contracted) (fun e => map block_mapping (pins contracted e))
       (fun b => filter (fun e => mem b (map block_mapping (pins contracted e))) (edges contracted))
       (block_weight H P) (ew contracted).
(** 202-207 *)
Definition needs_repair : bool := (length (nodes contracted) <? k)%nat.
Definition block_graph : hypergraph := if needs_repair then repaired else contracted.
(** the array mapping after 201-207 *)
Definition node_map (v : nat) : nat := let c := cmap H kInv labels v in if needs_repair then block_mapping c else c.
(** 208-236: [R] is the partition of contracted_phg after the mapping algorithm;
    it starts with node b in block b *)
Definition apply_mapping (dist : (nat -> bool) -> Z) (R : partition) : partition := fun v =>
  if mem v (nodes H) && (mapping_cost block_graph dist R <? mapping_cost block_graph dist Some) then R (node_map v) else P v.
End Model.

(** ** Lemmas *)
Lemma rank_nth p b : p b = true -> forall k d, (b < k)%nat -> nth (rank p b) (filter p (seq 0 k)) d = b.
Proof.
  intros Pb k d L. replace k with (b + S (k - S b))%nat by lia. rewrite seq_app, filter_app. cbn [seq filter Nat.add]. rewrite Pb.
  rewrite app_nth2; unfold rank; [|lia]. now rewrite Nat.sub_diag.
Qed.
Lemma filter_all {A} (p : A -> bool) l : length (filter p l) = length l -> forall x, In x l -> p x = true.
Proof.
  induction l as [|a l IH]; intros E x []; cbn [filter length] in E.
  - subst x. destruct (p a) eqn:Pa; auto. pose proof (filter_length_le_ p l). lia.
  - destruct (p a); cbn [length] in E; [apply IH; auto|]. pose proof (filter_length_le_ p l). lia.
Qed.
Definition csetl (Q : partition) (l : list nat) (b : nat) : bool := existsb (in_block Q b) l.
Lemma existsb_map_ {A B} (f : A -> B) p l : existsb p (map f l) = existsb (fun x => p (f x)) l.
Proof. induction l as [|a l IH]; cbn; [reflexivity|now rewrite IH]. Qed.

Section Proofs.
Variables (H : hypergraph) (n m kInv k : nat) (P : partition) (s : csched).
Variable dist : (nat -> bool) -> Z.
Hypothesis WF : wf_hg H.
Hypothesis NODES : forall v, In v (nodes H) -> (v < n)%nat.
Hypothesis EDGES : forall e, In e (edges H) -> (e < m)%nat.
Hypothesis INV : (n <= kInv)%nat.
Hypothesis KN : (k <= n)%nat.
Hypothesis PART : forall v, In v (nodes H) -> exists b, P v = Some b /\ (b < k)%nat.
(** a block that contains a node has a positive weight *)
Hypothesis POS : forall v b, In v (nodes H) -> P v = Some b -> 0 < block_weight H P b.
Hypothesis SCHED : csched_ok H n m kInv (labels n k P) s.
Hypothesis EXT : forall s t, (forall b, s b = t b) -> dist s = dist t.
(** a set of at most one block costs nothing *)
Hypothesis ONE : forall t, (forall a b, t a = true -> t b = true -> a = b) -> dist t = 0.
Notation lab := (labels n k P).
Notation C := (contracted H n m kInv k P s).
Notation B := (block_graph H n m kInv k P s).
Notation f := (cmap H kInv lab).
Notation nm := (node_map H n m kInv k P s).
Notation cp := (cpins H kInv lab).

Lemma lab_block v : lab v = block_of P v.
Proof. unfold labels. rewrite (proj2 (Nat.leb_le k n) KN). reflexivity. Qed.
Lemma lab_lt v : In v (nodes H) -> (lab v < k)%nat.
Proof. intros Hv. rewrite lab_block. unfold block_of. destruct (PART v Hv) as (b & -> & L). exact L. Qed.
Lemma pre : contract_pre H n m kInv lab.
Proof. constructor; auto. intros v Hv. pose proof (lab_lt v Hv). lia. Qed.
Lemma used_lt b : Contract.used H lab b = true -> (b < k)%nat.
Proof. intros U. apply existsb_exists in U. destruct U as (v & Hv & E). apply Nat.eqb_eq in E. subst b. now apply lab_lt. Qed.
Lemma bw_pos_used b : (0 <? block_weight H P b) = Contract.used H lab b.
Proof.
  destruct (Contract.used H lab b) eqn:U.
  - apply existsb_exists in U. destruct U as (v & Hv & E). apply Nat.eqb_eq in E. destruct (PART v Hv) as (c & Ec & L).
    rewrite lab_block in E. unfold block_of in E. rewrite Ec in E. subst c. apply Z.ltb_lt. eapply POS; eauto.
  - apply Z.ltb_ge. unfold block_weight. replace (filter (in_block P b) (nodes H)) with (@nil nat); [cbn; lia|].
    symmetry. assert (A : forall v, In v (nodes H) -> in_block P b v = false).
    { intros v Hv. unfold in_block. destruct (P v) as [c|] eqn:E; auto. destruct (Nat.eqb_spec c b) as [->|]; auto.
      assert (X : Contract.used H lab b = true); [|congruence]. apply existsb_exists. exists v. split; auto. apply Nat.eqb_eq. rewrite lab_block. unfold block_of. now rewrite E. }
    clear - A. induction (nodes H) as [|a l IH]; cbn; auto. rewrite (A a); [apply IH; intros y Hy; apply A; now right|now left].
Qed.
Lemma nonempty_used : nonempty_blocks H k P = filter (Contract.used H lab) (seq 0 k).
Proof. unfold nonempty_blocks. apply filter_ext. exact bw_pos_used. Qed.
Lemma rank_split (p : nat -> bool) a c : (forall b, (a <= b)%nat -> p b = false) -> rank p (a + c) = rank p a.
Proof.
  intros A. unfold rank. rewrite seq_app, filter_app, app_length. cbn [Nat.add].
  replace (filter p (seq a c)) with (@nil nat); [cbn; lia|]. symmetry.
  assert (X : forall b, In b (seq a c) -> p b = false) by (intros b Hb; apply in_seq in Hb; apply A; lia).
  revert X. generalize (seq a c). intros l X. induction l as [|x l IH]; cbn; auto. rewrite (X x); [apply IH; intros y Hy; apply X; now right|now left].
Qed.
Lemma rank_big : rank (Contract.used H lab) n = rank (Contract.used H lab) k.
Proof.
  pose proof (rank_split (Contract.used H lab) k (n - k)) as R. replace (k + (n - k))%nat with n in R by lia. apply R.
  intros b L. destruct (Contract.used H lab b) eqn:U; auto. apply used_lt in U. lia.
Qed.
Lemma C_nodes : nodes C = seq 0 (rank (Contract.used H lab) k).
Proof. unfold contracted. rewrite contract_unfold. cbn [nodes]. unfold num_coarse. now rewrite rank_big. Qed.
Lemma C_len : length (nodes C) = rank (Contract.used H lab) k.
Proof. rewrite C_nodes. apply seq_length. Qed.
Lemma block_mapping_rank b : Contract.used H lab b = true -> block_mapping H kInv k P (rank (Contract.used H lab) b) = b.
Proof. intros U. unfold block_mapping. rewrite nonempty_used. apply rank_nth; auto. now apply used_lt. Qed.
Lemma no_repair : needs_repair H n m kInv k P s = false -> forall b, (b < k)%nat -> Contract.used H lab b = true.
Proof.
  unfold needs_repair. rewrite C_len. intros R b L. apply Nat.ltb_ge in R.
  apply (filter_all _ (seq 0 k)); [|apply in_seq; lia]. rewrite seq_length. unfold rank in R. pose proof (filter_length_le_ (Contract.used H lab) (seq 0 k)) as LE. rewrite seq_length in LE. lia.
Qed.
Lemma rank_full b : needs_repair H n m kInv k P s = false -> (b < k)%nat -> rank (Contract.used H lab) b = b.
Proof.
  intros R L. unfold rank. replace (filter (Contract.used H lab) (seq 0 b)) with (seq 0 b); [apply seq_length|].
  assert (A : forall c, In c (seq 0 b) -> Contract.used H lab c = true) by (intros c Hc; apply in_seq in Hc; apply no_repair; auto; lia).
  revert A. generalize (seq 0 b). intros l A. induction l as [|a l IH]; cbn; auto. rewrite (A a); [f_equal; apply IH; intros y Hy; apply A; now right|now left].
Qed.
(** Every node is mapped to its block. *)
Lemma node_map_block v : In v (nodes H) -> P v = Some (nm v).
Proof.
  intros Hv. destruct (PART v Hv) as (b & E & L). rewrite E. f_equal.
  assert (U : Contract.used H lab b = true).
  { apply existsb_exists. exists v. split; auto. apply Nat.eqb_eq. rewrite lab_block. unfold block_of. now rewrite E. }
  unfold node_map. rewrite (cmap_active H kInv lab v Hv). rewrite lab_block. unfold block_of. rewrite E.
  destruct (needs_repair H n m kInv k P s) eqn:R; symmetry; [now apply block_mapping_rank|now apply rank_full].
Qed.

(** *** The cost *)
Lemma cset_l G Q e b : cset G Q e b = csetl Q (pins G e) b.
Proof. reflexivity. Qed.
Lemma C_cost Q : mapping_cost C dist Q = mapping_cost H dist (fun v => Q (f v)).
Proof.
  unfold mapping_cost. etransitivity; [exact (coarse_sum H n m kInv lab s pre SCHED (fun l => dist (csetl Q l)))|].
  apply sumZ_ext. intros e He. destruct (cpins_spec H n m kInv lab pre e He) as [_ Hi].
  assert (A : forall b, csetl Q (cp e) b = cset H (fun v => Q (f v)) e b).
  { intros b. apply bool_iff. unfold csetl, cset. rewrite !existsb_exists. split.
    - intros (x & Hx & E). apply Hi in Hx. destruct Hx as (v & Hv & <-). exists v. auto.
    - intros (v & Hv & E). exists (f v). split; [apply Hi; eauto|exact E]. }
  destruct (1 <? length (cp e))%nat eqn:E; [now rewrite (EXT _ _ A)|]. rewrite ONE; [lia|].
  intros a b. rewrite <- !A. apply Nat.ltb_ge in E. unfold csetl. destruct (cp e) as [|x [|y l]]; cbn in *; try lia; try congruence.
  rewrite !orb_false_r. unfold in_block. destruct (Q x) as [c|]; [|discriminate]. rewrite !Nat.eqb_eq. congruence.
Qed.
Lemma B_cost Q : mapping_cost B dist Q = mapping_cost H dist (fun v => Q (nm v)).
Proof.
  unfold block_graph, node_map. destruct (needs_repair H n m kInv k P s); [|apply C_cost].
  rewrite <- (C_cost (fun c => Q (block_mapping H kInv k P c))).
  unfold mapping_cost. cbn [repaired edges ew]. apply sumZ_ext. intros e _. f_equal. apply EXT. intros b. unfold cset. cbn [repaired pins]. rewrite existsb_map_. reflexivity.
Qed.
Lemma cost_nodes Q R : (forall v, In v (nodes H) -> Q v = R v) -> mapping_cost H dist Q = mapping_cost H dist R.
Proof.
  intros E. unfold mapping_cost. apply sumZ_ext. intros e He. f_equal. apply EXT. intros b. unfold cset. apply bool_iff. rewrite !existsb_exists.
  split; intros (v & Hv & X); exists v; split; auto; unfold in_block in *; pose proof (E v (wf_pins_nodes H WF e v He Hv)) as Y; [rewrite <- Y|rewrite Y]; exact X.
Qed.

(** *** The hypergraph of the blocks *)
Lemma B_nodes : nodes B = seq 0 k.
Proof.
  unfold block_graph. destruct (needs_repair H n m kInv k P s) eqn:R; [reflexivity|]. rewrite C_nodes. f_equal.
  unfold needs_repair in R. rewrite C_len in R. apply Nat.ltb_ge in R. unfold rank in *. pose proof (filter_length_le_ (Contract.used H lab) (seq 0 k)) as LE. rewrite seq_length in LE. lia.
Qed.
Lemma in_block_nm b v : In v (nodes H) -> in_block P b v = (nm v =? b)%nat.
Proof. intros Hv. unfold in_block. now rewrite (node_map_block v Hv). Qed.
Lemma B_weight b : nw B b = block_weight H P b.
Proof.
  unfold block_graph. destruct (needs_repair H n m kInv k P s) eqn:R; [reflexivity|].
  destruct (C18_contraction_weights H n m kInv lab s pre SCHED) as (_ & _ & _ & W & _). unfold contracted. rewrite W. unfold block_weight. f_equal.
  apply filter_ext_in. intros v Hv. rewrite (in_block_nm b v Hv). unfold node_map. now rewrite R.
Qed.
Lemma B_wf : wf_hg B.
Proof.
  destruct (C20_contraction_wellformed H n m kInv lab s pre SCHED) as (W & _). fold C in W. unfold block_graph.
  destruct (needs_repair H n m kInv k P s); [|exact W]. destruct W as [W1 W2 W3 W4 W5 W6].
  assert (PU : forall e c, In e (edges C) -> In c (pins C e) -> exists b, Contract.used H lab b = true /\ block_mapping H kInv k P c = b /\ rank (Contract.used H lab) b = c).
  { intros e c He Hc. apply (W4 e c He) in Hc. rewrite C_nodes in Hc. apply in_seq in Hc. destruct (rank_surj (Contract.used H lab) k c ltac:(lia)) as (b & _ & Ub & Rb).
    exists b. split; auto. split; auto. rewrite <- Rb. now apply block_mapping_rank. }
  constructor; cbn [repaired nodes edges pins inc].
  - apply seq_NoDup.
  - exact W2.
  - intros e He. specialize (W3 e He). assert (Q : forall c, In c (pins C e) -> exists b, Contract.used H lab b = true /\ block_mapping H kInv k P c = b /\ rank (Contract.used H lab) b = c) by (intros c; apply PU; auto).
    revert W3 Q. generalize (pins C e). intros l ND Q. induction ND as [|x l Hx ND IH]; cbn; constructor.
    + intros I. apply in_map_iff in I. destruct I as (y & E & Hy). destruct (Q x (or_introl eq_refl)) as (b1 & _ & E1 & R1). destruct (Q y (or_intror Hy)) as (b2 & _ & E2 & R2).
      apply Hx. replace x with y; auto. congruence.
    + apply IH. intros c Hc. apply Q. now right.
  - intros e v He Hv. apply in_map_iff in Hv. destruct Hv as (c & <- & Hc). destruct (PU e c He Hc) as (b & U & -> & _). apply in_seq. pose proof (used_lt b U). lia.
  - intros v _. now apply NoDup_filter_.
  - intros v e _. rewrite filter_In, mem_In. tauto.
Qed.

(** ** Theorem: contraction and repair *)
(** The hypergraph that is mapped has exactly the nodes 0..k-1; node b has the
    weight of block b; every node of the input belongs to the node of its block; a
    mapping R costs what it costs to put all nodes of block b into block R b. *)
Theorem C91_block_graph : nodes B = seq 0 k /\ wf_hg B /\ (forall b, nw B b = block_weight H P b) /\
  (forall v, In v (nodes H) -> P v = Some (nm v)) /\
  (forall R, mapping_cost B dist R = mapping_cost H dist (fun v => match P v with Some b => R b | None => None end)) /\
  mapping_cost B dist Some = mapping_cost H dist P /\ one_to_one B Some.
Proof.
  assert (X : forall R, mapping_cost B dist R = mapping_cost H dist (fun v => match P v with Some b => R b | None => None end)).
  { intros R. rewrite B_cost. apply cost_nodes. intros v Hv. now rewrite (node_map_block v Hv). }
  split; [apply B_nodes|]. split; [apply B_wf|]. split; [apply B_weight|]. split; [apply node_map_block|]. split; [exact X|]. split.
  - rewrite X. apply cost_nodes. intros v _. destruct (P v); reflexivity.
  - split; [discriminate|]. intros u v _ _ E. now injection E.
Qed.

(** ** Theorem: the mapped partition *)
(** For every one-to-one mapping R of the blocks, the partition afterwards has no
    larger cost, and a strictly smaller one if it was changed; it puts nodes into
    the same block exactly if they were in the same block before; it has the same
    block weights up to the renaming of the blocks. *)
Theorem C91_mapping R : one_to_one B R -> (forall b c, (b < k)%nat -> R b = Some c -> (c < k)%nat) ->
  let Q := apply_mapping H n m kInv k P s dist R in
  mapping_cost H dist Q <= mapping_cost H dist P /\
  ((forall v, Q v = P v) \/ mapping_cost H dist Q < mapping_cost H dist P) /\
  (forall v, In v (nodes H) -> exists c, Q v = Some c /\ (c < k)%nat) /\
  (forall u v, In u (nodes H) -> In v (nodes H) -> (Q u = Q v <-> P u = P v)) /\
  (exists rename, (forall v b, In v (nodes H) -> P v = Some b -> Q v = Some (rename b)) /\
     (forall b c, (b < k)%nat -> (c < k)%nat -> rename b = rename c -> b = c) /\ (forall b, (b < k)%nat -> (rename b < k)%nat) /\
     (forall b, (b < k)%nat -> block_weight H Q (rename b) = block_weight H P b)) /\
  (forall v, ~ In v (nodes H) -> Q v = P v).
Proof.
  intros (T & I) L Q. destruct C91_block_graph as (N & _ & _ & NM & CR & CI & _). rewrite N in *.
  assert (M : exists rename, (forall v b, In v (nodes H) -> P v = Some b -> Q v = Some (rename b)) /\
     (forall b c, (b < k)%nat -> (c < k)%nat -> rename b = rename c -> b = c) /\ (forall b, (b < k)%nat -> (rename b < k)%nat)).
  { unfold Q, apply_mapping. destruct (mapping_cost B dist R <? mapping_cost B dist Some) eqn:E.
    - exists (fun b => match R b with Some c => c | None => 0%nat end). split; [|split].
      + intros v b Hv Pv. rewrite (proj2 (mem_In v (nodes H)) Hv). cbn [andb]. pose proof (NM v Hv) as Nv. rewrite Pv in Nv. injection Nv as <-.
        destruct (PART v Hv) as (b' & E1 & L1). rewrite Pv in E1. injection E1 as E1.
        destruct (R b) eqn:E2; auto. exfalso. apply (T b); auto. apply in_seq. lia.
      + intros b c Lb Lc X. destruct (R b) as [x|] eqn:E1; [|exfalso; apply (T b); auto; apply in_seq; lia]. destruct (R c) as [y|] eqn:E2; [|exfalso; apply (T c); auto; apply in_seq; lia].
        apply I; [apply in_seq; lia|apply in_seq; lia|congruence].
      + intros b Lb. destruct (R b) as [x|] eqn:E1; [eapply L; eauto|]. exfalso. apply (T b); auto. apply in_seq. lia.
    - exists (fun b => b). split; [|split]; auto. intros v b Hv Pv. now rewrite andb_false_r. }
  destruct M as (rn & M1 & M2 & M3).
  assert (S : forall u v, In u (nodes H) -> In v (nodes H) -> (Q u = Q v <-> P u = P v)).
  { intros u v Hu Hv. destruct (PART u Hu) as (b & E1 & L1), (PART v Hv) as (c & E2 & L2). rewrite (M1 u b Hu E1), (M1 v c Hv E2), E1, E2. split; intros X; injection X as X; f_equal; auto. }
  assert (CQ : (forall v, Q v = P v) \/ mapping_cost H dist Q < mapping_cost H dist P).
  { unfold Q, apply_mapping. destruct (mapping_cost B dist R <? mapping_cost B dist Some) eqn:E.
    - right. apply Z.ltb_lt in E. rewrite CR, CI in E. eapply Z.le_lt_trans; [|exact E]. apply Z.eq_le_incl. apply cost_nodes.
      intros v Hv. rewrite (proj2 (mem_In v (nodes H)) Hv). cbn [andb]. now rewrite (NM v Hv).
    - left. intros v. now rewrite andb_false_r. }
  split; [|split; [exact CQ|split; [|split; [exact S|split; [|]]]]].
  - destruct CQ as [E|E]; [|lia]. apply Z.eq_le_incl. apply cost_nodes. auto.
  - intros v Hv. destruct (PART v Hv) as (b & E & Lb). exists (rn b). split; auto.
  - exists rn. split; auto. split; auto. split; auto. intros b Lb. unfold block_weight. f_equal. apply filter_ext_in. intros v Hv.
    destruct (PART v Hv) as (c & E & Lc). unfold in_block. rewrite (M1 v c Hv E), E. apply bool_iff. rewrite !Nat.eqb_eq. split; [auto|congruence].
  - intros v Hv. unfold Q, apply_mapping. destruct (mem v (nodes H)) eqn:E; [apply mem_In in E; contradiction|reflexivity].
Qed.

(** ** Theorem: the mapping algorithm *)
(** greedy_mapping.cpp:260-318: from every node a greedy mapping, improved by the
    local search if it is enabled; one of the results, or the given mapping, is
    kept (an over-approximation of the comparisons in 289-306). *)
Inductive mapping_result (G : hypergraph) (fixed_to : nat -> option nat) (individual : bool) (L deg : nat -> Z) (rate : partition -> nat -> nat -> Z) (fixed : nat -> bool) (local_search : bool) : partition -> Prop :=
| mr_keep : mapping_result G fixed_to individual L deg rate fixed local_search Some
| mr_greedy seed R : local_search = false -> In seed (nodes G) -> greedy G fixed_to individual L deg rate k seed R ->
    mapping_result G fixed_to individual L deg rate fixed local_search R
| mr_improved seed R0 R : local_search = true -> In seed (nodes G) -> greedy G fixed_to individual L deg rate k seed R0 ->
    improve G dist fixed individual L R0 R -> mapping_result G fixed_to individual L deg rate fixed local_search R.
(** Without fixed vertices, whatever the mapping algorithm returns is applied as described above. *)
Theorem C91_map_to_target_graph individual L deg rate ls R :
  mapping_result B (fun _ => None) individual L deg rate (fun _ => false) ls R ->
  let Q := apply_mapping H n m kInv k P s dist R in
  mapping_cost H dist Q <= mapping_cost H dist P /\
  (forall v, In v (nodes H) -> exists c, Q v = Some c /\ (c < k)%nat) /\
  (forall u v, In u (nodes H) -> In v (nodes H) -> (Q u = Q v <-> P u = P v)) /\
  (exists rename, (forall v b, In v (nodes H) -> P v = Some b -> Q v = Some (rename b)) /\
     (forall b c, (b < k)%nat -> (c < k)%nat -> rename b = rename c -> b = c) /\
     (forall b, (b < k)%nat -> block_weight H Q (rename b) = block_weight H P b)).
Proof.
  intros M Q. destruct C91_block_graph as (N & W & _ & _ & _ & _ & O).
  assert (KL : k = length (nodes B)) by (rewrite N; now rewrite seq_length).
  assert (GR : forall seed R0, In seed (nodes B) -> greedy B (fun _ => None) individual L deg rate k seed R0 -> one_to_one B R0 /\ (forall x p, In x (nodes B) -> R0 x = Some p -> (p < k)%nat)).
  { intros seed R0 Hs G.
    pose proof (C90_greedy B (fun _ => None) individual L deg rate W (fun x y p _ _ E => ltac:(discriminate)) (fun x p _ E => ltac:(discriminate)) seed R0 Hs eq_refl) as T.
    rewrite <- KL in T. destruct (T G) as (A1 & A2 & _). split; auto. }
  assert (X : one_to_one B R /\ (forall b c, (b < k)%nat -> R b = Some c -> (c < k)%nat)).
  { destruct M as [|seed R _ Hs G|seed R0 R _ Hs G IM].
    - split; [exact O|]. intros b c Lb E. injection E as <-. exact Lb.
    - destruct (GR seed R Hs G) as (A1 & A2). split; auto. intros b c Lb E. apply (A2 b c); auto. rewrite N. apply in_seq. lia.
    - destruct (GR seed R0 Hs G) as (A1 & A2). pose proof (C90_local_search B dist (fun _ => false) individual L W EXT R0 R A1 IM) as IMP. split; [apply IMP|].
      intros b c Lb E. assert (U : KLMapThms.used B R c). { exists b. split; auto. rewrite N. apply in_seq. lia. }
      apply (i_used _ _ _ _ _ _ _ IMP) in U. destruct U as (x & Hx & Ex). apply (A2 x c); auto. }
  destruct X as (X1 & X2). destruct (C91_mapping R X1 X2) as (Y1 & _ & Y3 & Y4 & (rn & Z1 & Z2 & Z3 & Z4) & _).
  split; auto. split; auto. split; auto. exists rn. auto.
Qed.
End Proofs.

(** ** Theorem: more blocks than nodes *)
(** If there are more blocks than nodes, every node is a node of its own of the
    contracted hypergraph (195), and repairEmptyBlocks takes node i to be the i-th
    nonempty block (150-156).  Three nodes, four blocks, the blocks of the nodes are
    3, 2 and 0: node 0 belongs to block 0 and node 2 to block 3 afterwards, and the
    objective of the hypergraph that is mapped is not that of the partition (the
    ASSERT in 213 fails). *)
Definition pathdist (t : nat -> bool) : Z :=
  let l := filter t (seq 0 4) in match l with [] => 0 | x :: _ => Z.of_nat (last l 0%nat) - Z.of_nat x end.
Definition tH : hypergraph := mkHG [0;1;2]%nat [0;1]%nat (fun e => if (e =? 0)%nat then [0;1] else [1;2])%nat
  (fun v => match v with 0 => [0] | 1 => [0;1] | _ => [1] end)%nat (fun _ => 1) (fun e => if (e =? 0)%nat then 10 else 1).
Definition tP (v : nat) : option nat := match v with 0 => Some 3 | 1 => Some 2 | _ => Some 0 end%nat.
Definition ts (P : partition) (k : nat) : csched := canon_sched tH 2 9 (labels 3 k P).
Theorem C91_refuted_small : exists P, (forall u v, In u (nodes tH) -> In v (nodes tH) -> P u = P v -> u = v) /\
  (forall v, In v (nodes tH) -> exists b, P v = Some b /\ (b < 4)%nat) /\
  mapping_cost tH pathdist P = 12 /\ mapping_cost (block_graph tH 3 2 9 4 P (ts P 4)) pathdist Some = 21 /\
  map P [0;1;2]%nat = [Some 3; Some 2; Some 0]%nat /\ map (node_map tH 3 2 9 4 P (ts P 4)) [0;1;2]%nat = [0;2;3]%nat.
Proof.
  exists tP. split; [|split; [|vm_compute; auto]].
  - cbn. intros u v [<-|[<-|[<-|[]]]] [<-|[<-|[<-|[]]]] E; cbn in E; auto; discriminate.
  - cbn. intros v [<-|[<-|[<-|[]]]]; cbn; eexists; split; try reflexivity; lia.
Qed.
(** If two nodes are in the same block, the entries of block_mapping for the last
    nodes are never written, and hyperedges get the pin kInvalidHypernode. *)
Theorem C91_refuted_shared : exists P, (forall v, In v (nodes tH) -> exists b, P v = Some b /\ (b < 4)%nat) /\
  pins (block_graph tH 3 2 9 4 P (ts P 4)) 1%nat = [3; 9]%nat /\ node_map tH 3 2 9 4 P (ts P 4) 2 = 9%nat.
Proof.
  exists (fun v => if (v =? 0)%nat then Some 1%nat else Some 3%nat). split; [|vm_compute; auto].
  intros v _. destruct (v =? 0)%nat; eexists; split; try reflexivity; lia.
Qed.
(** The same if a block has only nodes of weight zero: it counts as empty.  Three
    blocks; block 2 is empty and the node of block 0 has weight zero: it is taken for
    a node of block 1, and the nodes of block 1 get kInvalidHypernode. *)
Definition zH : hypergraph := mkHG [0;1;2]%nat [0;1]%nat (pins tH) (inc tH) (fun v => if (v =? 1)%nat then 0 else 1) (ew tH).
Theorem C91_refuted_weight_zero : exists P : partition, (forall v, In v (nodes zH) -> exists b, P v = Some b /\ (b < 3)%nat) /\
  (P 1%nat = Some 0%nat /\ node_map zH 3 2 9 3 P (canon_sched zH 2 9 (labels 3 3 P)) 1 = 1%nat) /\ node_map zH 3 2 9 3 P (canon_sched zH 2 9 (labels 3 3 P)) 2 = 9%nat /\ needs_repair zH 3 2 9 3 P (canon_sched zH 2 9 (labels 3 3 P)) = true.
Proof.
  exists (fun v => if (v =? 1)%nat then Some 0%nat else Some 1%nat). split; [|vm_compute; auto].
  intros v _. destruct (v =? 1)%nat; eexists; split; try reflexivity; lia.
Qed.

(** ** A concrete case *)
(** Three nodes in blocks 0, 2 and 1 of three, and in blocks 2, 0, 2 (block 1 is empty). *)
Definition eP (v : nat) : option nat := match v with 0 => Some 0 | 1 => Some 2 | _ => Some 1 end%nat.
Definition rP (v : nat) : option nat := match v with 1 => Some 0 | _ => Some 2 end%nat.
Definition eR (b : nat) : option nat := match b with 0 => Some 0 | 1 => Some 2 | _ => Some 1 end%nat.
Theorem C91_example : wf_hg tH /\
  (forall s t, (forall b, s b = t b) -> pathdist s = pathdist t) /\ (forall t, (forall a b, t a = true -> t b = true -> a = b) -> pathdist t = 0) /\
  Forall (fun P => (forall v, In v (nodes tH) -> exists b, P v = Some b /\ (b < 3)%nat) /\ (forall v b, In v (nodes tH) -> P v = Some b -> 0 < block_weight tH P b) /\
    csched_ok tH 3 2 9 (labels 3 3 P) (ts P 3)) [eP; rP] /\
  map (needs_repair tH 3 2 9 3 eP) [ts eP 3] = [false] /\ needs_repair tH 3 2 9 3 rP (ts rP 3) = true /\
  mapping_cost tH pathdist eP = 21 /\ map (apply_mapping tH 3 2 9 3 eP (ts eP 3) pathdist eR) [0;1;2]%nat = [Some 0; Some 1; Some 2]%nat /\
  mapping_cost tH pathdist (apply_mapping tH 3 2 9 3 eP (ts eP 3) pathdist eR) = 11 /\
  mapping_cost tH pathdist rP = 22 /\ map (apply_mapping tH 3 2 9 3 rP (ts rP 3) pathdist eR) [0;1;2]%nat = [Some 1; Some 0; Some 1]%nat.
Proof.
  split; [apply wf_hgb_sound; reflexivity|]. split; [|split; [|split]].
  - intros s t E. unfold pathdist. now rewrite (filter_ext s t E).
  - intros t T. unfold pathdist. cbn [seq filter]. destruct (t 0%nat) eqn:E0, (t 1%nat) eqn:E1, (t 2%nat) eqn:E2, (t 3%nat) eqn:E3; cbn; try lia;
      exfalso; repeat match goal with A : t ?x = true, B : t ?y = true |- _ => first [assert_fails (assert (x <> y) by discriminate); fail 1 | discriminate (T x y A B)] end.
  - apply Forall_cons; [|apply Forall_cons; [|apply Forall_nil]]; (split; [|split; [|apply canon_sched_ok]]).
    1,3: intros v Hv; destruct Hv as [<-|[<-|[<-|[]]]]; eexists; (split; [reflexivity|lia]).
    all: intros v b Hv E; destruct Hv as [<-|[<-|[<-|[]]]]; injection E as <-; vm_compute; reflexivity.
  - vm_compute. repeat split.
Qed.
Print Assumptions C91_map_to_target_graph.
Print Assumptions C91_example.
