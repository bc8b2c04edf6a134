(** EdgeRemoval.v - removing and restoring hyperedges and isolated nodes of a static hypergraph
    (mt-kahypar/datastructures/static_hypergraph.h:610-629, 771-823, 931-968). *)
From Verif Require Import Base Spec Sorting Construct.

(** The mutable part of StaticHypergraph.  [hs_seg v i] is the i-th entry of the range of node v in _incident_nets (the ranges of
    different nodes are disjoint, see Construct.v, so each node gets its own array), [hs_sz v] is hypernode(v).size(); the capacity of
    the range is hypernode(v + 1).firstEntry() - hypernode(v).firstEntry() = initial degree of v.  [hs_non], [hs_eon]: enabled flags;
    [hs_rn], [hs_re]: _num_removed_hypernodes, _num_removed_hyperedges. *)
Record hstate := mkHS { hs_seg : nat -> nat -> nat; hs_sz : nat -> nat; hs_non : nat -> bool; hs_eon : nat -> bool; hs_rn : nat; hs_re : nat }.

Section Static.
Variable B : hypergraph.   (* the constructed hypergraph: pins, weights and incidence ranges never change *)
Definition cap (v : nat) : nat := length (inc B v).

(** The state after construction. *)
Definition hinit : hstate := mkHS (fun v i => nth i (inc B v) 0%nat) cap (fun _ => true) (fun _ => true) 0 0.
(** What iteration shows: nodes() / edges() skip disabled elements (:120-180), incidentEdges(u) is the first size() entries. *)
Definition view (s : hstate) : hypergraph :=
  mkHG (filter (hs_non s) (nodes B)) (filter (hs_eon s) (edges B)) (pins B) (fun v => map (hs_seg s v) (seq 0 (hs_sz s v))) (nw B) (ew B).

(** The search loops of :938-942 and :960-964: first position in [p, p + cnt) holding [e]. *)
Fixpoint find_pos (a : nat -> nat) (e p cnt : nat) : option nat :=
  match cnt with O => None | S c => if (a p =? e)%nat then Some p else find_pos a e (S p) c end.
(** removeIncidentEdgeFromHypernode, :931-946; None = failed assertion *)
Definition remove_inc (e : nat) (s : hstate) (u : nat) : option hstate :=
  if hs_non s u then
    match find_pos (hs_seg s u) e 0 (hs_sz s u) with
    | Some i => Some (mkHS (upd (hs_seg s) u (swap (hs_seg s u) i (hs_sz s u - 1))) (upd (hs_sz s) u (hs_sz s u - 1)%nat) (hs_non s) (hs_eon s) (hs_rn s) (hs_re s))
    | None => None
    end
  else None.
(** insertIncidentEdgeToHypernode, :949-968 *)
Definition insert_inc (e : nat) (s : hstate) (u : nat) : option hstate :=
  if hs_non s u then
    match find_pos (hs_seg s u) e (hs_sz s u) (cap u - hs_sz s u) with
    | Some i => Some (mkHS (upd (hs_seg s) u (swap (hs_seg s u) (hs_sz s u) i)) (upd (hs_sz s) u (S (hs_sz s u))) (hs_non s) (hs_eon s) (hs_rn s) (hs_re s))
    | None => None
    end
  else None.
(** removeEdge (:771-778; sequential) and removeLargeEdge (:799-809; parallel_for over the pins: [order] is the order in which the pins
    are processed.  Each pin only touches the data of its own node.) *)
Definition removeEdge (s : hstate) (e : nat) (order : list nat) : option hstate :=
  if hs_eon s e then
    match fold_opt (remove_inc e) s order with
    | Some s1 => Some (mkHS (hs_seg s1) (hs_sz s1) (hs_non s1) (upd (hs_eon s1) e false) (hs_rn s1) (S (hs_re s1)))
    | None => None
    end
  else None.
(** restoreEdge (:783-789) and restoreLargeEdge (:814-823).  Note that _num_removed_hyperedges is not decremented. *)
Definition restoreEdge (s : hstate) (e : nat) (order : list nat) : option hstate :=
  if hs_eon s e then None
  else fold_opt (insert_inc e) (mkHS (hs_seg s) (hs_sz s) (hs_non s) (upd (hs_eon s) e true) (hs_rn s) (hs_re s)) order.
(** removeDegreeZeroHypernode (:614-623), restoreDegreeZeroHypernode (:626-629; _num_removed_hypernodes is not decremented) *)
Definition removeNode (s : hstate) (u : nat) : option hstate :=
  if (hs_sz s u =? 0)%nat then Some (mkHS (hs_seg s) (hs_sz s) (upd (hs_non s) u false) (hs_eon s) (S (hs_rn s)) (hs_re s)) else None.
Definition restoreNode (s : hstate) (u : nat) : option hstate :=
  if (hs_sz s u =? 0)%nat then Some (mkHS (hs_seg s) (hs_sz s) (upd (hs_non s) u true) (hs_eon s) (hs_rn s) (hs_re s)) else None.

Inductive hop := HRem (e : nat) (order : list nat) | HRes (e : nat) (order : list nat) | HRemN (u : nat) | HResN (u : nat).
Definition hstep (s : hstate) (o : hop) : option hstate :=
  match o with HRem e ord => removeEdge s e ord | HRes e ord => restoreEdge s e ord | HRemN u => removeNode s u | HResN u => restoreNode s u end.
Definition hrun (s : hstate) (l : list hop) : option hstate := fold_opt hstep s l.

(** ** Specification of histories: which hyperedges / nodes are present after [l]; removals only of present, restorations only of
    removed hyperedges, nodes are removed only if they have no pins at all (in the complete hypergraph). *)
Inductive history : (nat -> bool) -> (nat -> bool) -> list hop -> Prop :=
| h_nil : history (fun _ => true) (fun _ => true) []
| h_rem en nn l e ord : history en nn l -> In e (edges B) -> en e = true -> Permutation ord (pins B e) -> history (upd en e false) nn (l ++ [HRem e ord])
| h_res en nn l e ord : history en nn l -> In e (edges B) -> en e = false -> Permutation ord (pins B e) -> history (upd en e true) nn (l ++ [HRes e ord])
| h_remn en nn l u : history en nn l -> In u (nodes B) -> inc B u = [] -> history en (upd nn u false) (l ++ [HRemN u])
| h_resn en nn l u : history en nn l -> In u (nodes B) -> inc B u = [] -> history en (upd nn u true) (l ++ [HResN u]).

(** ** Proofs *)
Hypothesis WF : wf_hg B.

Lemma find_pos_some a e p cnt : (exists i, (p <= i < p + cnt)%nat /\ a i = e) -> exists i, find_pos a e p cnt = Some i /\ (p <= i < p + cnt)%nat /\ a i = e.
Proof.
  revert p. induction cnt as [|c IH]; intros p (i & Hi & E); [lia|]. cbn [find_pos].
  destruct (Nat.eqb_spec (a p) e) as [Ep|Ne]; [exists p; repeat split; auto; lia|].
  destruct (IH (S p)) as (j & J1 & J2 & J3); [exists i; split; [|exact E]|].
  - assert (i <> p) by (intros ->; contradiction). lia.
  - exists j. repeat split; auto; lia.
Qed.

(** Range of node [v] with array [a], size [z]: a duplicate-free arrangement of inc B v with the present hyperedges first. *)
Definition rinv (en : nat -> bool) (v : nat) (a : nat -> nat) (z : nat) : Prop :=
  (z <= cap v)%nat /\ (forall i j, (i < cap v)%nat -> (j < cap v)%nat -> a i = a j -> i = j) /\
  (forall e, In e (inc B v) <-> exists i, (i < cap v)%nat /\ a i = e) /\ (forall i, (i < cap v)%nat -> (en (a i) = true <-> (i < z)%nat)).

Lemma swap_at a i j x : swap a i j x = if (x =? j)%nat then a i else if (x =? i)%nat then a j else a x.
Proof. unfold swap, upd. destruct (Nat.eqb x j), (Nat.eqb x i); reflexivity. Qed.

Lemma swap_inj a i j n : (i < n)%nat -> (j < n)%nat -> (forall x y, (x < n)%nat -> (y < n)%nat -> a x = a y -> x = y) ->
  forall x y, (x < n)%nat -> (y < n)%nat -> swap a i j x = swap a i j y -> x = y.
Proof.
  intros Hi Hj I x y Hx Hy. rewrite !swap_at.
  destruct (Nat.eqb_spec x j), (Nat.eqb_spec y j), (Nat.eqb_spec x i), (Nat.eqb_spec y i); intros E; subst; auto;
    try (apply I in E; [lia|assumption|assumption]); try lia.
Qed.
Lemma swap_range a i j n e : (i < n)%nat -> (j < n)%nat -> (exists x, (x < n)%nat /\ a x = e) <-> exists x, (x < n)%nat /\ swap a i j x = e.
Proof.
  intros Hi Hj. split; intros (x & Hx & E).
  - destruct (Nat.eq_dec x i) as [->|Ni]; [exists j; rewrite swap_at, Nat.eqb_refl; auto|].
    destruct (Nat.eq_dec x j) as [->|Nj].
    + exists i. rewrite swap_at, Nat.eqb_refl. destruct (Nat.eqb_spec i j) as [Q|Q]; [lia|auto].
    + exists x. rewrite swap_at. destruct (Nat.eqb_spec x j); [lia|]. destruct (Nat.eqb_spec x i); [lia|auto].
  - rewrite swap_at in E. destruct (Nat.eqb_spec x j); [exists i; auto|]. destruct (Nat.eqb_spec x i); [exists j; auto|exists x; auto].
Qed.

Lemma rinv_remove en v a z e : rinv en v a z -> In e (inc B v) -> en e = true ->
  exists i, find_pos a e 0 z = Some i /\ rinv (upd en e false) v (swap a i (z - 1)) (z - 1).
Proof.
  intros (R1 & R2 & R3 & R4) He Hen. destruct (proj1 (R3 e) He) as (i0 & Hi0 & E0).
  assert (Hz : (i0 < z)%nat) by (apply R4; [exact Hi0|rewrite E0; exact Hen]).
  destruct (find_pos_some a e 0 z) as (i & F & Hi & Ei); [exists i0; split; [lia|exact E0]|]. exists i. split; [exact F|].
  assert (i = i0) by (apply R2; [lia|exact Hi0|congruence]). subst i0.
  split; [lia|]. split; [apply swap_inj; [lia|lia|exact R2]|]. split; [intros e'; rewrite R3; apply swap_range; lia|].
  intros x Hx. rewrite swap_at. unfold upd. destruct (Nat.eqb_spec x (z - 1)) as [Q|Q].
  - rewrite Ei, Nat.eqb_refl. split; [discriminate|lia].
  - destruct (Nat.eqb_spec x i) as [Q2|Q2].
    + destruct (Nat.eqb_spec (a (z - 1)%nat) e) as [Q3|Q3].
      * assert (z - 1 = i)%nat by (apply R2; [lia|lia|congruence]). lia.
      * rewrite R4 by lia. lia.
    + destruct (Nat.eqb_spec (a x) e) as [Q3|Q3].
      * assert (x = i) by (apply R2; [lia|lia|congruence]). lia.
      * rewrite R4 by lia. lia.
Qed.
Lemma rinv_insert en v a z e : rinv en v a z -> In e (inc B v) -> en e = false ->
  exists i, find_pos a e z (cap v - z) = Some i /\ rinv (upd en e true) v (swap a z i) (S z).
Proof.
  intros (R1 & R2 & R3 & R4) He Hen. destruct (proj1 (R3 e) He) as (i0 & Hi0 & E0).
  assert (Hz : ~ (i0 < z)%nat) by (rewrite <- R4 by exact Hi0; rewrite E0, Hen; discriminate).
  destruct (find_pos_some a e z (cap v - z)) as (i & F & Hi & Ei); [exists i0; split; [lia|exact E0]|]. exists i. split; [exact F|].
  assert (i = i0) by (apply R2; [lia|exact Hi0|congruence]). subst i0.
  split; [lia|]. split; [apply swap_inj; [lia|lia|exact R2]|]. split; [intros e'; rewrite R3; apply swap_range; lia|].
  intros x Hx. rewrite swap_at. unfold upd. destruct (Nat.eqb_spec x i) as [Q|Q].
  - destruct (Nat.eqb_spec (a z) e) as [Q3|Q3].
    + assert (z = i)%nat by (apply R2; [lia|lia|congruence]). split; [lia|reflexivity].
    + rewrite R4 by lia. assert (z <> i) by (intros ->; contradiction). lia.
  - destruct (Nat.eqb_spec x z) as [Q2|Q2].
    + rewrite Ei, Nat.eqb_refl. split; [lia|reflexivity].
    + destruct (Nat.eqb_spec (a x) e) as [Q3|Q3].
      * assert (x = i) by (apply R2; [lia|lia|congruence]). lia.
      * rewrite R4 by lia. lia.
Qed.
Lemma rinv_other en v a z e b : rinv en v a z -> ~ In e (inc B v) -> rinv (upd en e b) v a z.
Proof.
  intros (R1 & R2 & R3 & R4) He. split; [exact R1|]. split; [exact R2|]. split; [exact R3|]. intros i Hi. unfold upd.
  destruct (Nat.eqb_spec (a i) e) as [Q|Q]; [exfalso; apply He, R3; exists i; auto|apply R4, Hi].
Qed.

(** State invariant: nodes without pins may be disabled, all others are enabled. *)
Definition hinv (en nn : nat -> bool) (s : hstate) : Prop :=
  (forall v, In v (nodes B) -> rinv en v (hs_seg s v) (hs_sz s v)) /\ (forall e, hs_eon s e = en e) /\ (forall v, hs_non s v = nn v) /\
  (forall v, In v (nodes B) -> nn v = false -> inc B v = []).

Lemma remove_fold en e : forall l done s, (forall v, In v (nodes B) -> hs_non s v = false -> inc B v = []) -> NoDup (l ++ done) -> incl l (pins B e) -> In e (edges B) -> en e = true ->
  (forall v, In v (nodes B) -> rinv (if mem v done then upd en e false else en) v (hs_seg s v) (hs_sz s v)) ->
  exists s', fold_opt (remove_inc e) s l = Some s' /\ hs_eon s' = hs_eon s /\ hs_non s' = hs_non s /\ hs_rn s' = hs_rn s /\ hs_re s' = hs_re s /\
    forall v, In v (nodes B) -> rinv (if mem v (l ++ done) then upd en e false else en) v (hs_seg s' v) (hs_sz s' v).
Proof.
  induction l as [|u l IH]; intros done s NN ND IL He Hen R; [exists s; cbn; auto 6|]. cbn [fold_opt app] in *. apply NoDup_cons_iff in ND. destruct ND as [Nu ND].
  assert (Hu : In u (pins B e)) by (apply IL; left; reflexivity). pose proof (wf_pins_nodes B WF e u He Hu) as Hun.
  assert (Hin : In e (inc B u)) by (apply (wf_inc B WF); auto).
  assert (Md : mem u done = false) by (apply mem_false; intros Q; apply Nu; apply in_or_app; right; exact Q).
  pose proof (R u Hun) as Ru. rewrite Md in Ru. destruct (rinv_remove en u _ _ e Ru Hin Hen) as (i & F & R').
  unfold remove_inc at 1. destruct (hs_non s u) eqn:NU; [|rewrite (NN u Hun NU) in Hin; destruct Hin]. rewrite F.
  set (s1 := mkHS _ _ _ _ _ _).
  destruct (IH (u :: done) s1) as (s' & E & A1 & A2 & A3 & A4 & A5).
  - exact NN.
  - apply (Permutation_NoDup (l := u :: l ++ done)); [apply Permutation_middle|]. apply NoDup_cons; assumption.
  - intros x Hx. apply IL. right. exact Hx.
  - exact He.
  - exact Hen.
  - intros v Hv. unfold s1; cbn [hs_seg hs_sz mem existsb]. destruct (Nat.eqb_spec v u) as [Q|Q]; [rewrite Q, !upd_same; exact R'|]. rewrite !upd_other by exact Q. apply R, Hv.
  - exists s'. repeat (split; [assumption|]). intros v Hv. specialize (A5 v Hv).
    replace (mem v (u :: l ++ done)) with (mem v (l ++ u :: done)); [exact A5|]. apply eq_true_iff_eq. rewrite !mem_In. cbn [In]. rewrite !in_app_iff. cbn [In]. tauto.
Qed.
Lemma insert_fold en e : forall l done s, (forall v, In v (nodes B) -> hs_non s v = false -> inc B v = []) -> NoDup (l ++ done) -> incl l (pins B e) -> In e (edges B) -> en e = false ->
  (forall v, In v (nodes B) -> rinv (if mem v done then upd en e true else en) v (hs_seg s v) (hs_sz s v)) ->
  exists s', fold_opt (insert_inc e) s l = Some s' /\ hs_eon s' = hs_eon s /\ hs_non s' = hs_non s /\ hs_rn s' = hs_rn s /\ hs_re s' = hs_re s /\
    forall v, In v (nodes B) -> rinv (if mem v (l ++ done) then upd en e true else en) v (hs_seg s' v) (hs_sz s' v).
Proof.
  induction l as [|u l IH]; intros done s NN ND IL He Hen R; [exists s; cbn; auto 6|]. cbn [fold_opt app] in *. apply NoDup_cons_iff in ND. destruct ND as [Nu ND].
  assert (Hu : In u (pins B e)) by (apply IL; left; reflexivity). pose proof (wf_pins_nodes B WF e u He Hu) as Hun.
  assert (Hin : In e (inc B u)) by (apply (wf_inc B WF); auto).
  assert (Md : mem u done = false) by (apply mem_false; intros Q; apply Nu; apply in_or_app; right; exact Q).
  pose proof (R u Hun) as Ru. rewrite Md in Ru. destruct (rinv_insert en u _ _ e Ru Hin Hen) as (i & F & R').
  unfold insert_inc at 1. destruct (hs_non s u) eqn:NU; [|rewrite (NN u Hun NU) in Hin; destruct Hin]. rewrite F.
  set (s1 := mkHS _ _ _ _ _ _).
  destruct (IH (u :: done) s1) as (s' & E & A1 & A2 & A3 & A4 & A5).
  - exact NN.
  - apply (Permutation_NoDup (l := u :: l ++ done)); [apply Permutation_middle|]. apply NoDup_cons; assumption.
  - intros x Hx. apply IL. right. exact Hx.
  - exact He.
  - exact Hen.
  - intros v Hv. unfold s1; cbn [hs_seg hs_sz mem existsb]. destruct (Nat.eqb_spec v u) as [Q|Q]; [rewrite Q, !upd_same; exact R'|]. rewrite !upd_other by exact Q. apply R, Hv.
  - exists s'. repeat (split; [assumption|]). intros v Hv. specialize (A5 v Hv).
    replace (mem v (u :: l ++ done)) with (mem v (l ++ u :: done)); [exact A5|]. apply eq_true_iff_eq. rewrite !mem_In. cbn [In]. rewrite !in_app_iff. cbn [In]. tauto.
Qed.

Lemma hinv_removeEdge en nn s e ord : hinv en nn s -> In e (edges B) -> en e = true -> Permutation ord (pins B e) ->
  exists s', removeEdge s e ord = Some s' /\ hinv (upd en e false) nn s'.
Proof.
  intros (I1 & I2 & I3 & I4) He Hen P. unfold removeEdge. rewrite I2, Hen.
  destruct (remove_fold en e ord [] s) as (s' & E & A1 & A2 & _ & _ & A5).
  - intros v Hv Hn. apply I4; [exact Hv|rewrite <- I3; exact Hn].
  - rewrite app_nil_r. apply (Permutation_NoDup (Permutation_sym P)), (wf_pins_nodup B WF e He).
  - intros v Hv. apply (Permutation_in _ P Hv).
  - exact He.
  - exact Hen.
  - intros v Hv. exact (I1 v Hv).
  - rewrite E. eexists. split; [reflexivity|]. rewrite app_nil_r in A5. split; [|split; [|split; [|exact I4]]]; cbn [hs_seg hs_sz hs_eon hs_non].
    + intros v Hv. specialize (A5 v Hv). destruct (mem v ord) eqn:M; [exact A5|]. apply rinv_other; [exact A5|].
      intros Q. apply mem_false in M. apply M, (Permutation_in _ (Permutation_sym P)). apply (wf_inc B WF v e Hv), Q.
    + intros e'. rewrite A1. unfold upd. rewrite I2. reflexivity.
    + intros v. rewrite A2. apply I3.
Qed.
Lemma hinv_restoreEdge en nn s e ord : hinv en nn s -> In e (edges B) -> en e = false -> Permutation ord (pins B e) ->
  exists s', restoreEdge s e ord = Some s' /\ hinv (upd en e true) nn s'.
Proof.
  intros (I1 & I2 & I3 & I4) He Hen P. unfold restoreEdge. rewrite I2, Hen.
  set (s0 := mkHS _ _ _ _ _ _).
  destruct (insert_fold en e ord [] s0) as (s' & E & A1 & A2 & _ & _ & A5).
  - intros v Hv Hn. apply I4; [exact Hv|rewrite <- I3; exact Hn].
  - rewrite app_nil_r. apply (Permutation_NoDup (Permutation_sym P)), (wf_pins_nodup B WF e He).
  - intros v Hv. apply (Permutation_in _ P Hv).
  - exact He.
  - exact Hen.
  - intros v Hv. exact (I1 v Hv).
  - rewrite E. eexists. split; [reflexivity|]. rewrite app_nil_r in A5. split; [|split; [|split; [|exact I4]]].
    + intros v Hv. specialize (A5 v Hv). destruct (mem v ord) eqn:M; [exact A5|]. apply rinv_other; [exact A5|].
      intros Q. apply mem_false in M. apply M, (Permutation_in _ (Permutation_sym P)). apply (wf_inc B WF v e Hv), Q.
    + intros e'. rewrite A1. unfold s0, upd; cbn [hs_eon]. rewrite I2. reflexivity.
    + intros v. rewrite A2. apply I3.
Qed.
Lemma hinv_node en nn s u b : hinv en nn s -> In u (nodes B) -> inc B u = [] ->
  hs_sz s u = 0%nat /\ forall rn re, hinv en (upd nn u b) (mkHS (hs_seg s) (hs_sz s) (upd (hs_non s) u b) (hs_eon s) rn re).
Proof.
  intros (I1 & I2 & I3 & I4) Hu Z. split; [destruct (I1 u Hu) as (R1 & _); unfold cap in R1; rewrite Z in R1; cbn in R1; lia|].
  intros rn re. split; [exact I1|]. split; [exact I2|]. split; [intros v; unfold upd; cbn [hs_non]; rewrite I3; reflexivity|].
  intros v Hv. unfold upd. destruct (Nat.eqb_spec v u) as [E|E]; [rewrite E; intros _; exact Z|apply I4, Hv].
Qed.
Lemma hinit_inv : hinv (fun _ => true) (fun _ => true) hinit.
Proof.
  split; [|split; [reflexivity|split; [reflexivity|discriminate]]]. intros v Hv. unfold rinv, hinit; cbn [hs_seg hs_sz]. unfold cap. split; [lia|].
  split; [intros i j Hi Hj; apply (proj1 (NoDup_nth (inc B v) 0%nat) (wf_inc_nodup B WF v Hv)); assumption|].
  split; [intros e; split; [intros I; destruct (In_nth _ _ 0%nat I) as (i & Hi & E); exists i; auto|intros (i & Hi & <-); apply nth_In, Hi]|].
  intros i Hi. split; [intros _; exact Hi|reflexivity].
Qed.
Lemma history_hinv en nn l : history en nn l -> exists s, hrun hinit l = Some s /\ hinv en nn s.
Proof.
  unfold hrun. induction 1 as [|en nn l e ord Hh IH He Hen P|en nn l e ord Hh IH He Hen P|en nn l u Hh IH Hu Z|en nn l u Hh IH Hu Z];
    [exists hinit; split; [reflexivity|apply hinit_inv]| | | |]; destruct IH as (s & E & I); rewrite fold_opt_app, E; cbn [fold_opt hstep].
  - destruct (hinv_removeEdge en nn s e ord I He Hen P) as (s' & E' & I'). rewrite E'. eauto.
  - destruct (hinv_restoreEdge en nn s e ord I He Hen P) as (s' & E' & I'). rewrite E'. eauto.
  - destruct (hinv_node en nn s u false I Hu Z) as [S0 I']. unfold removeNode. rewrite S0. cbn. eauto.
  - destruct (hinv_node en nn s u true I Hu Z) as [S0 I']. unfold restoreNode. rewrite S0. cbn. eauto.
Qed.

Lemma view_inc en nn s v : hinv en nn s -> In v (nodes B) ->
  NoDup (inc (view s) v) /\ forall e, In e (inc (view s) v) <-> In e (inc B v) /\ en e = true.
Proof.
  intros (I1 & _) Hv. destruct (I1 v Hv) as (R1 & R2 & R3 & R4). cbn [view inc]. split.
  - apply NoDup_nth with (d := hs_seg s v 0%nat). intros i j Hi Hj. rewrite map_length, seq_length in Hi, Hj. rewrite !map_nth, !seq_nth by assumption.
    intros E. apply R2 in E; [exact E| |]; cbn; lia.
  - intros e. rewrite in_map_iff. split.
    + intros (i & <- & Hi). apply in_seq in Hi. split; [apply R3; exists i; split; [lia|reflexivity]|apply R4; [lia|cbn in Hi; lia]].
    + intros [A C]. apply R3 in A. destruct A as (i & Hi & <-). exists i. split; [reflexivity|]. apply in_seq. assert (i < hs_sz s v)%nat by (apply R4; [exact Hi|exact C]). lia.
Qed.
Lemma view_wf en nn s : hinv en nn s -> wf_hg (view s).
Proof.
  intros I. pose proof I as (I1 & I2 & I3 & I4). constructor; cbn [view nodes edges pins].
  - apply NoDup_filter_, WF.
  - apply NoDup_filter_, WF.
  - intros e He. apply filter_In in He. apply WF, He.
  - intros e v He Hv. apply filter_In in He. destruct He as [He _]. pose proof (wf_pins_nodes B WF e v He Hv) as Hn. apply filter_In. split; [exact Hn|].
    rewrite I3. destruct (nn v) eqn:N; [reflexivity|]. pose proof (I4 v Hn N) as Z. assert (Q : In e (inc B v)) by (apply (wf_inc B WF v e Hn); auto). rewrite Z in Q. destruct Q.
  - intros v Hv. apply filter_In in Hv. apply (view_inc en nn s v I (proj1 Hv)).
  - intros v e Hv. apply filter_In in Hv. destruct Hv as [Hv _]. destruct (view_inc en nn s v I Hv) as [_ M]. cbn [view inc] in M. rewrite M, filter_In, (wf_inc B WF v e Hv), I2. tauto.
Qed.
End Static.

(** C30 (hypergraph): after any history of removals and restorations, in any order and with any order of processing the pins, no
    operation fails, exactly the non-removed hyperedges and nodes are visible, each node is incident to exactly its non-removed
    hyperedges, and everything else (pins, weights) is that of the original hypergraph. *)
Theorem C30_remove_restore_hyperedges B en nn l : wf_hg B -> history B en nn l ->
  exists s, hrun B (hinit B) l = Some s /\
    nodes (view B s) = filter nn (nodes B) /\ edges (view B s) = filter en (edges B) /\
    (forall v, In v (nodes B) -> Permutation (inc (view B s) v) (filter en (inc B v))) /\
    pins (view B s) = pins B /\ nw (view B s) = nw B /\ ew (view B s) = ew B /\ wf_hg (view B s).
Proof.
  intros WF Hh. destruct (history_hinv B WF en nn l Hh) as (s & E & I). exists s. split; [exact E|].
  pose proof I as (_ & I2 & I3 & _).
  split; [apply filter_ext; exact I3|]. split; [apply filter_ext; exact I2|]. split; [|split; [reflexivity|split; [reflexivity|split; [reflexivity|apply (view_wf B WF en nn s I)]]]].
  intros v Hv. destruct (view_inc B en nn s v I Hv) as [N M].
  apply NoDup_Permutation; [exact N|apply NoDup_filter_, WF, Hv|]. intros e. rewrite M, filter_In. tauto.
Qed.
(** In particular: if everything has been restored, the hypergraph is the original one up to the order of incident hyperedges. *)
Theorem C30_all_restored B en nn l : wf_hg B -> history B en nn l -> (forall e, In e (edges B) -> en e = true) -> (forall v, In v (nodes B) -> nn v = true) ->
  exists s, hrun B (hinit B) l = Some s /\ nodes (view B s) = nodes B /\ edges (view B s) = edges B /\
    forall v, In v (nodes B) -> Permutation (inc (view B s) v) (inc B v).
Proof.
  intros WF Hh He Hn. destruct (C30_remove_restore_hyperedges B en nn l WF Hh) as (s & E & A1 & A2 & A3 & _).
  assert (F : forall (p : nat -> bool) (x : list nat), (forall y, In y x -> p y = true) -> filter p x = x).
  { intros p x. induction x as [|a x IH]; intros Q; [reflexivity|]. cbn. rewrite (Q a (or_introl eq_refl)), IH; [reflexivity|]. intros y Hy. apply Q. right. exact Hy. }
  exists s. split; [exact E|]. split; [rewrite A1; apply F, Hn|]. split; [rewrite A2; apply F, He|].
  intros v Hv. rewrite (A3 v Hv), F; [reflexivity|]. intros e Hi. apply He. apply (wf_inc B WF v e Hv), Hi.
Qed.
