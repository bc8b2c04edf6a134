(** C86: an n-level hierarchy, built by concurrent contractions and undone batch
    by batch, gives every hyperedge its pins back. *)
From Coq Require Import List Arith Lia Bool Permutation Sorted.
From Verif Require Import Base Batch BatchProps INARep INAOps2 RegTree RegTreeSpec RegTreeInv RegTreeInv2 RegTreeForest RegTreeProps
  DynEdge DynEdgeSpec DynEdgeThms DynEdgeBatch DynEdgeRun DynEdgeProps Roundtrip RoundtripInv.
Import ListNotations.
Local Open Scope nat_scope.

Lemma below_mono B j k : j <= k -> below B j <= below B k.
Proof. induction 1; cbn; lia. Qed.
Lemma below_S B j k : j < k -> below B j + B j <= below B k.
Proof. intros H. change (below B j + B j) with (below B (S j)). now apply below_mono. Qed.

(** *** the tree and its batches *)
Section Tree.
Variables (n mx : nat) (w0 : nat -> nat) (g : G) (pcs : nat -> pc) (bs : nat) (asg : nat -> list asn) (B bidx : nat -> nat).
Hypothesis R : srun n mx w0 (g, pcs).
Hypothesis Q : forall t, pcs t = Idle.
Hypothesis Hbs : 0 < bs.
Hypothesis H : hierarchy (tree_of n g) bs (cv g) asg B.
Hypothesis HI : batch_indices (cv g) asg B bidx.

Let T : nat := below B (S (cv g)).
Let rank : nat -> nat := rank_of (cv g) B bidx.

Lemma t_forest : forest_ok (tree_of n g).
Proof. exact (proj1 (C84_tree n mx w0 g pcs R Q)). Qed.

Lemma a_facts k a : k <= cv g -> In a (asg k) ->
  a_b a < B k /\ a_v a < n /\ ver g (a_v a) = Some k /\ a_u a = par g (a_v a).
Proof.
  intros Lk Ha. destruct (H k Lk) as (dist & s & ts & BR & Fi & Ea & Eb). rewrite Ea in Ha.
  destruct (C80_complete _ _ _ _ _ _ t_forest Hbs BR Fi) as (P & U).
  destruct (C80_positions _ _ _ _ _ _ t_forest Hbs BR Fi) as (B' & E & HB & Pos & _).
  assert (Hv : In (a_v a) (contracted (tree_of n g) k)) by (eapply Permutation_in; [exact P|apply in_map; exact Ha]).
  unfold contracted in Hv. apply filter_In in Hv. destruct Hv as (Hn & Hk). apply in_seq in Hn. cbn in Hn, Hk.
  repeat split.
  - rewrite Eb, E by lia. apply HB. pose proof (Permutation_length (Pos (a_b a))) as L. rewrite map_length, seq_length in L.
    assert (X : In a (filter (fun x => a_b x =? a_b a) (assignments ts))) by (apply filter_In; split; [exact Ha|apply Nat.eqb_refl]).
    destruct (filter _ _) as [|z l]; [destruct X|]. cbn in L. lia.
  - lia.
  - destruct (ver g (a_v a)) as [j|]; [|discriminate]. apply Nat.eqb_eq in Hk. congruence.
  - apply (U a Ha).
Qed.

Lemma a_exists v k : v < n -> ver g v = Some k -> k <= cv g /\ exists a, In a (asg k) /\ a_v a = v.
Proof.
  intros Lv V. assert (Lk : k <= cv g) by (apply (i_ver2 _ _ _ _ (run_inv _ _ _ _ (srun_run _ _ _ _ R)) v k V)). split; auto.
  destruct (H k Lk) as (dist & s & ts & BR & Fi & Ea & Eb).
  destruct (C80_complete _ _ _ _ _ _ t_forest Hbs BR Fi) as (P & U).
  assert (Hv : In v (map a_v (assignments ts))).
  { eapply Permutation_in; [symmetry; exact P|]. unfold contracted. apply filter_In. split; [apply in_seq; cbn; lia|].
    cbn. rewrite V. apply Nat.eqb_refl. }
  apply in_map_iff in Hv. destruct Hv as (a & E & Ha). exists a. rewrite Ea. auto.
Qed.

Lemma a_rank k a : k <= cv g -> In a (asg k) -> rank (a_v a) = from B (cv g) (S k) + a_b a /\ rank (a_v a) < from B (cv g) k /\
  from B (cv g) k <= T.
Proof.
  intros Lk Ha. destruct (a_facts k a Lk Ha) as (Lb & _). pose proof (below_S B k (S (cv g)) ltac:(lia)) as L.
  unfold rank, rank_of, from, T. rewrite (HI k a Lk Ha). cbn [below] in *. lia.
Qed.

Lemma from_anti j k : j <= k -> from B (cv g) k <= from B (cv g) j.
Proof. intros L. unfold from. pose proof (below_mono B j k L). lia. Qed.

(** a contracted node is uncontracted in some batch, after its representative *)
Lemma node_rank v : v < n -> par g v <> v -> rank v < T.
Proof.
  intros Lv N. pose proof (run_inv _ _ _ _ (srun_run _ _ _ _ R)) as I.
  destruct (ver g v) as [k|] eqn:V; [|apply (i_ver _ _ _ _ I) in V; cbn in V; congruence].
  destruct (a_exists v k Lv V) as (Lk & a & Ha & <-). destruct (a_rank k a Lk Ha) as (_ & L1 & L2). lia.
Qed.

Lemma par_rank v : v < n -> par g v <> v -> par g (par g v) = par g v \/ rank (par g v) < rank v.
Proof.
  intros Lv N. pose proof (run_inv _ _ _ _ (srun_run _ _ _ _ R)) as I. pose proof (srun_sinv _ _ _ _ R) as SI.
  destruct (ver g v) as [k|] eqn:V; [|apply (i_ver _ _ _ _ I) in V; cbn in V; congruence].
  destruct (ver g (par g v)) as [j|] eqn:W; [|left; now apply (i_ver _ _ _ _ I)]. right.
  pose proof (s_ver2 _ _ SI v k j Lv V W) as Le. pose proof (i_par _ _ _ _ I v Lv) as Lp. cbn in Lp.
  destruct (a_exists v k Lv V) as (Lk & a & Ha & Ea). destruct (a_exists _ j Lp W) as (Lj & c & Hc & Ec).
  destruct (a_rank k a Lk Ha) as (R1 & _). destruct (a_rank j c Lj Hc) as (R2 & R3 & _). rewrite Ea in R1. rewrite Ec in R2, R3.
  destruct (Nat.eq_dec k j) as [->|Nk].
  - destruct (H j Lj) as (dist & s & ts & BR & Fi & Eas & Eb). rewrite Eas in Ha, Hc.
    pose proof (C80_parent_first _ _ _ _ _ _ c a t_forest Hbs BR Hc Ha) as X. cbn in X. rewrite Ea, Ec in X. specialize (X eq_refl). lia.
  - pose proof (from_anti (S k) j ltac:(lia)). lia.
Qed.

(** *** contractions in one hyperedge *)
Section Edge.
Variables (P0 : list nat) (e : edge) (ops : list eop) (r : option nat).
Hypothesis NP : NoDup P0.
Hypothesis LP : forall x, In x P0 -> x < n.
Hypothesis J : hinv n mx w0 P0 g pcs e ops r.

Let b0 : nat := first_batch (cv g) B r.

Lemma o_node o : In o ops -> exists k a, k <= cv g /\ In a (asg k) /\ a_v a = o_v o /\ ver g (o_v o) = Some k.
Proof.
  intros Ho. destruct (j_ver _ _ _ _ _ _ _ _ _ J o Ho) as (k & V & _). destruct (j_par _ _ _ _ _ _ _ _ _ J o Ho) as (Lo & _).
  destruct (a_exists _ k Lo V) as (Lk & a & Ha & E). exists k, a. auto.
Qed.

Lemma edge_valid x : (In x P0 \/ In x (map o_u ops)) -> ~ In x (map o_v ops) -> In x (valid e).
Proof.
  intros Hx N. destruct (erun_inv _ _ _ NP (j_er _ _ _ _ _ _ _ _ _ J)) as [C G].
  assert (E : forall o, In o ops -> o_u o = x -> In x (valid e)).
  { intros o Ho <-. apply (ci_valid _ _ _ C). split; [|exact N].
    destruct (legal_in _ _ _ G Ho) as (l1 & l2 & E & G1). destruct (o_sh o) eqn:Es.
    - apply (lg_sh _ _ _ G1) in Es. destruct Es as [Es|Es]; [left; exact Es|right]. rewrite E. apply nsh_app. auto.
    - right. exists o. auto. }
  destruct Hx as [Hx|Hx]; [apply (ci_valid _ _ _ C); auto|]. apply in_map_iff in Hx. destruct Hx as (o & Eo & Ho). eauto.
Qed.

(** the order of the batches suits the order of the contractions *)
Lemma edge_order : order_ok P0 ops rank (par g) b0.
Proof.
  pose proof (run_inv _ _ _ _ (srun_run _ _ _ _ R)) as I.
  split.
  - intros o Ho. apply (j_par _ _ _ _ _ _ _ _ _ J o Ho).
  - intros o Ho. unfold b0, first_batch. case_eq r; [intros k0 Er|intros _; lia].
    destruct (j_rm _ _ _ _ _ _ _ _ _ J k0 Er) as (_ & A & _). destruct (A o Ho) as (j & V & L).
    destruct (o_node o Ho) as (k & a & Lk & Ha & Ea & V'). rewrite V in V'. injection V' as ->.
    destruct (a_rank k a Lk Ha) as (R1 & _). rewrite Ea in R1. pose proof (from_anti (S k) (S k0) ltac:(lia)). lia.
  - intros o1 o2 H1 H2 E. destruct (j_par _ _ _ _ _ _ _ _ _ J o1 H1) as (L1 & D1 & P1). destruct (j_par _ _ _ _ _ _ _ _ _ J o2 H2) as (L2 & D2 & P2).
    destruct (i_dis _ _ _ _ I _ D1) as (N1 & _). destruct (i_dis _ _ _ _ I _ D2) as (N2 & _). cbn in N1, N2.
    destruct (par_rank (o_v o2) L2 N2) as [X|X]; rewrite P2, E in X; [congruence|exact X].
  - intros l1 o1 l2 o2 l3 E Eu.
    assert (H1 : In o1 ops) by (rewrite E; apply in_or_app; right; left; auto).
    assert (H2 : In o2 ops) by (rewrite E; apply in_or_app; right; right; apply in_or_app; right; left; auto).
    destruct (o_node o1 H1) as (k1 & a1 & Lk1 & Ha1 & Ea1 & V1). destruct (o_node o2 H2) as (k2 & a2 & Lk2 & Ha2 & Ea2 & V2).
    destruct (a_rank k1 a1 Lk1 Ha1) as (R1 & _). destruct (a_rank k2 a2 Lk2 Ha2) as (R2 & R3 & _). rewrite Ea1 in R1. rewrite Ea2 in R2, R3.
    assert (Lk : k1 <= k2).
    { pose proof (j_vs _ _ _ _ _ _ _ _ _ J) as F. rewrite E in F. exact (fop_split _ _ _ _ _ _ F k1 k2 V1 V2). }
    destruct (Nat.eq_dec k1 k2) as [<-|Nk]; [|pose proof (from_anti (S k1) k2 ltac:(lia)); lia].
    destruct (Nat.le_gt_cases (a_b a2) (a_b a1)) as [Lb|Lb]; [lia|]. exfalso.
    destruct (H k1 Lk1) as (dist & s & ts & BR & Fi & Eas & Eb). rewrite Eas in Ha1, Ha2.
    pose proof (C80_sibling_order _ _ _ _ _ _ a1 a2 t_forest Hbs BR Ha1 Ha2) as X. cbn in X. rewrite Ea1, Ea2 in X.
    destruct (j_par _ _ _ _ _ _ _ _ _ J o1 H1) as (_ & _ & P1). destruct (j_par _ _ _ _ _ _ _ _ _ J o2 H2) as (_ & _ & P2).
    specialize (X ltac:(congruence) Lb).
    destruct (j_tm _ _ _ _ _ _ _ _ _ J) as (tm & JT & JS). rewrite E in JS. apply fop_split in JS.
    assert (D : forall o, In o ops -> exists a b, iv g (o_v o) = Some (a, b) /\ a <= tm (o_v o) < b).
    { intros o Ho. destruct (JT o Ho) as ([D|(t & x & D)] & _); [exact D|]. exfalso. pose proof (Q t) as Qt.
      destruct D as [(z & Et & _)|(z & z' & [Et|Et] & _)]; congruence. }
    destruct (D o1 H1) as (s1 & e1 & I1 & B1). destruct (D o2 H2) as (s2 & e2 & I2 & B2). rewrite I1, I2 in X. lia.
  - intros x Hx N. pose proof (edge_valid x Hx N) as Hv. pose proof (j_lt _ _ _ _ _ _ _ _ _ J x Hv) as Lx.
    unfold b0, first_batch. case_eq r; [intros k0 Er|intros Er].
    + destruct (j_rm _ _ _ _ _ _ _ _ _ J k0 Er) as (_ & _ & A). destruct (A x Hv) as [P|(j & V & L)]; [auto|]. right.
      destruct (a_exists x j Lx V) as (Lj & a & Ha & Ea). destruct (a_rank j a Lj Ha) as (_ & R2 & _). rewrite Ea in R2.
      pose proof (from_anti (S k0) j ltac:(lia)). lia.
    + left. apply (idle_en n mx w0 g pcs x R Q Lx). destruct (en g x) eqn:E; auto.
      destruct (j_valid _ _ _ _ _ _ _ _ _ J Er x Hv E) as (t & y & X). rewrite Q in X. discriminate.
Qed.

(** *** representatives *)
Inductive climb (b : nat) : nat -> nat -> Prop :=
| cl_0 x : climb b x x
| cl_S x y : par g x <> x -> b <= rank x -> climb b (par g x) y -> climb b x y.

Lemma climb_snoc b x y : climb b x y -> par g y <> y -> b <= rank y -> climb b x (par g y).
Proof. induction 1; intros N L; [eapply cl_S; eauto; constructor|eapply cl_S; eauto]. Qed.

Lemma climb_rep b x y : climb b x y -> x < n -> (par g y = y \/ rank y < b) ->
  forall f, (rank x < f \/ par g x = x) -> rep_of (par g) rank b f x = y.
Proof.
  pose proof (i_par _ _ _ _ (run_inv _ _ _ _ (srun_run _ _ _ _ R))) as IP. cbn in IP.
  induction 1 as [x|x y N L C IH]; intros Lx P f Lf.
  - destruct f as [|f]; cbn [rep_of]; auto. destruct (par g x =? x) eqn:E1, (rank x <? b) eqn:E2; cbn [orb]; auto. eqb. lia.
  - destruct Lf as [Lf|Lf]; [|congruence]. destruct f as [|f]; [lia|]. cbn [rep_of].
    rewrite (proj2 (Nat.eqb_neq _ _) N), (proj2 (Nat.ltb_ge _ _) L). cbn [orb]. apply IH; auto.
    destruct (par_rank x Lx N); [auto|left; lia].
Qed.

Lemma reps_climb b os x : (forall o, In o os -> par g (o_v o) = o_u o /\ o_u o <> o_v o /\ b <= rank (o_v o)) ->
  climb b x (reps os x).
Proof.
  induction os as [|o os IH] using rev_ind; intros Ho; [constructor|].
  unfold reps in *. rewrite fold_left_app. cbn.
  specialize (IH (fun o' Hi => Ho o' (in_or_app _ _ _ (or_introl Hi)))).
  destruct (_ =? o_v o) eqn:E; [|exact IH]. eqb. destruct (Ho o) as (P & N & L); [apply in_or_app; right; left; auto|].
  rewrite <- P. rewrite E in IH. apply climb_snoc; auto. congruence.
Qed.

Lemma reps_rep b x : b0 <= b -> In x P0 -> reps (filter (fun o => b <=? rank (o_v o)) ops) x = rep_of (par g) rank b T x.
Proof.
  intros Lb Hx. symmetry. pose proof edge_order as O. pose proof (run_inv _ _ _ _ (srun_run _ _ _ _ R)) as I.
  destruct (erun_inv _ _ _ NP (j_er _ _ _ _ _ _ _ _ _ J)) as [C G].
  apply climb_rep.
  - apply reps_climb. intros o Ho. apply filter_In in Ho. destruct Ho as (Ho & Lr). eqb.
    destruct (j_par _ _ _ _ _ _ _ _ _ J o Ho) as (_ & D & P). destruct (i_dis _ _ _ _ I _ D) as (N & _). cbn in N. repeat split; auto. congruence.
  - auto.
  - set (y := reps _ x). assert (V : Vb P0 ops rank b y) by (apply (Vb_image P0 ops rank (par g) b0 G O); apply in_map; exact Hx).
    destruct V as (V1 & V2). destruct (in_dec Nat.eq_dec y (map o_v ops)) as [Hy|Hy].
    + right. apply in_map_iff in Hy. destruct Hy as (o & E & Ho). destruct (Nat.lt_ge_cases (rank y) b); auto. destruct V2. exists o. auto.
    + assert (Z : par g y = y \/ rank y < b0).
      { apply (o_else _ _ _ _ _ O); auto. destruct V1 as [V1|(o & Ho & E & _)]; [auto|]. right. rewrite <- E. apply in_map. auto. }
      destruct Z; [auto|right; lia].
  - destruct (Nat.eq_dec (par g x) x) as [E|E]; [auto|left; apply node_rank; auto].
Qed.
End Edge.
End Tree.

(** ** Theorems *)
Section Main.
Variables (n mx : nat) (w0 : nat -> nat) (P0 : list nat) (g : G) (pcs : nat -> pc) (e : edge) (ops : list eop) (r : option nat).
Variables (bs : nat) (asg : nat -> list asn) (B bidx : nat -> nat).
Hypothesis NP : NoDup P0.
Hypothesis LP : forall x, In x P0 -> x < n.
Hypothesis HR : hrun n mx w0 P0 (mkH (g, pcs) e ops r).
Hypothesis Q : forall t, pcs t = Idle.
Hypothesis Hbs : 0 < bs.
Hypothesis H : hierarchy (tree_of n g) bs (cv g) asg B.
Hypothesis HI : batch_indices (cv g) asg B bidx.

Let rank : nat -> nat := rank_of (cv g) B bidx.
Let T : nat := below B (S (cv g)).

(** Before every batch the pins of the hyperedge are exactly the nodes that
    represent its original pins, each of them once. *)
Theorem C86_pins b part s : urun ops e rank (par g) (first_batch (cv g) B r) b part s ->
  NoDup (valid (p_edge s)) /\
  forall x, In x (valid (p_edge s)) <-> In x (map (rep_of (par g) rank b T) P0).
Proof.
  intros U. pose proof (hrun_inv _ _ _ _ _ NP LP HR) as J. cbn in J.
  pose proof (edge_order n mx w0 g pcs bs asg B bidx (j_run _ _ _ _ _ _ _ _ _ J) Q Hbs H HI P0 e ops r NP LP J) as O.
  pose proof (j_er _ _ _ _ _ _ _ _ _ J) as ER. destruct (erun_inv _ _ _ NP ER) as [C G].
  destruct (C81_pins P0 ops e rank (par g) _ NP ER O b part s U) as (ND & V). split; [exact ND|].
  intros x. rewrite V.
  assert (Lb : first_batch (cv g) B r <= b) by exact (ui_b _ _ _ _ _ _ _ (urun_inv _ _ _ _ _ G O _ _ _ _ C U)).
  rewrite (map_ext_in _ (rep_of (par g) rank b T)); [reflexivity|]. intros z Hz.
  exact (reps_rep n mx w0 g pcs bs asg B bidx (j_run _ _ _ _ _ _ _ _ _ J) Q Hbs H HI P0 e ops r NP LP J b z Lb Hz).
Qed.

(** The pin counts are those of the current pins and blocks. *)
Theorem C86_pin_counts b part s : urun ops e rank (par g) (first_batch (cv g) B r) b part s ->
  forall blk, p_pc s blk = counts part (valid (p_edge s)) blk.
Proof.
  intros U. pose proof (hrun_inv _ _ _ _ _ NP LP HR) as J. cbn in J.
  pose proof (edge_order n mx w0 g pcs bs asg B bidx (j_run _ _ _ _ _ _ _ _ _ J) Q Hbs H HI P0 e ops r NP LP J) as O.
  exact (C81_pin_counts P0 ops e rank (par g) _ NP (j_er _ _ _ _ _ _ _ _ _ J) O b part s U).
Qed.

(** After the last batch the hyperedge has its original pins. *)
Theorem C86_restored b part s : urun ops e rank (par g) (first_batch (cv g) B r) b part s -> T <= b ->
  Permutation (valid (p_edge s)) P0.
Proof.
  intros U Lb. pose proof (hrun_inv _ _ _ _ _ NP LP HR) as J. cbn in J. pose proof (j_run _ _ _ _ _ _ _ _ _ J) as R.
  pose proof (edge_order n mx w0 g pcs bs asg B bidx R Q Hbs H HI P0 e ops r NP LP J) as O.
  apply (C81_restored P0 ops e rank (par g) _ NP (j_er _ _ _ _ _ _ _ _ _ J) O b part s U).
  intros o Ho. destruct (j_par _ _ _ _ _ _ _ _ _ J o Ho) as (Lo & D & _).
  destruct (i_dis _ _ _ _ (run_inv _ _ _ _ (srun_run _ _ _ _ R)) _ D) as (N & _). cbn in N.
  pose proof (node_rank n mx w0 g pcs bs asg B bidx R Q Hbs H HI (o_v o) Lo N). unfold T in Lb. unfold rank. lia.
Qed.

(** A batch does not change the blocks the hyperedge touches. *)
Theorem C86_connectivity_unchanged b part s os s' : urun ops e rank (par g) (first_batch (cv g) B r) b part s ->
  Permutation os (filter (fun o => rank (o_v o) =? b) ops) ->
  batch_run rank b (par g) (setparts rank b (par g) part) s os s' ->
  forall blk, 0 < p_pc s' blk <-> 0 < p_pc s blk.
Proof.
  intros U Po BR. pose proof (hrun_inv _ _ _ _ _ NP LP HR) as J. cbn in J.
  pose proof (edge_order n mx w0 g pcs bs asg B bidx (j_run _ _ _ _ _ _ _ _ _ J) Q Hbs H HI P0 e ops r NP LP J) as O.
  exact (C81_connectivity_unchanged P0 ops e rank (par g) _ NP (j_er _ _ _ _ _ _ _ _ _ J) O b part s os s' U Po BR).
Qed.
End Main.
