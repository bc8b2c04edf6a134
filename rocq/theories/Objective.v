(** Objective.v - how the objectives react to one node move, in terms of pin counts (specification side). *)
From Verif Require Import Base Spec SpecLemmas.

Definition pins_assigned (H : hypergraph) (P : partition) (k e : nat) : Prop :=
  forall v, In v (pins H e) -> exists b, P v = Some b /\ (b < k)%nat.

Definition esize (H : hypergraph) (e : nat) : Z := Z.of_nat (length (pins H e)).

Lemma pins_assigned_below H P k e : pins_assigned H P k e -> blocks_below H P k e.
Proof. intros A v b Hv Hb. destruct (A v Hv) as [c [Hc Hk]]. congruence. Qed.

Lemma pins_assigned_move H P k e u t : pins_assigned H P k e -> (t < k)%nat -> pins_assigned H (move P u t) k e.
Proof.
  intros A Ht v Hv. unfold move, upd. destruct (Nat.eqb v u); [exists t; tauto|apply A; exact Hv].
Qed.

Lemma pin_count_le_size H P e b : pin_count H P e b <= esize H e.
Proof.
  unfold pin_count, esize.
  assert (X : forall l, (length (filter (in_block P b) l) <= length l)%nat).
  { induction l as [|x r IH]; simpl; [lia|]. destruct (in_block P b x); simpl; lia. }
  specialize (X (pins H e)). lia.
Qed.

Lemma two_pin_counts H P e b c : b <> c -> pin_count H P e b + pin_count H P e c <= esize H e.
Proof.
  intros Hbc. rewrite !pin_count_sum. unfold esize. rewrite sumZ_length, <- sumZ_plus. apply sumZ_le.
  intros v _. unfold in_block. destruct (P v) as [d|]; [|simpl; lia].
  destruct (Nat.eqb_spec d b); destruct (Nat.eqb_spec d c); simpl; subst; try lia; try congruence.
Qed.

Section Move.
Variables (H : hypergraph) (k : nat) (P : partition) (u from to e : nat).
Hypothesis (Hnd : NoDup (pins H e)) (Hu : In u (pins H e)) (Hpu : P u = Some from) (Hft : from <> to)
           (Hto : (to < k)%nat) (HA : pins_assigned H P k e).

Lemma mem_u : mem u (pins H e) = true. Proof. apply mem_In; exact Hu. Qed.

Lemma from_lt : (from < k)%nat.
Proof. destruct (HA u Hu) as [b [Hb Hk]]. congruence. Qed.

Lemma pc_from_pos : 1 <= pin_count H P e from.
Proof. assert (X : 0 < pin_count H P e from) by (apply pin_count_pos_iff; exists u; tauto). lia. Qed.

Lemma pc_move b :
  pin_count H (move P u to) e b = pin_count H P e b + Z.b2z (Nat.eqb b to) - Z.b2z (Nat.eqb b from).
Proof.
  rewrite (pin_count_move H P u to e b Hnd), mem_u. unfold in_block. rewrite Hpu.
  rewrite (Nat.eqb_sym to b), (Nat.eqb_sym from b). lia.
Qed.

Lemma conn_move :
  connectivity H (move P u to) e =
  connectivity H P e + Z.b2z (pin_count H P e to =? 0) - Z.b2z (pin_count H P e from =? 1).
Proof.
  rewrite (connectivity_count H P k e) by (apply pins_assigned_below; exact HA).
  rewrite (connectivity_count H (move P u to) k e)
    by (apply pins_assigned_below, pins_assigned_move; assumption).
  unfold countb.
  rewrite (sumZ_ext (fun i => Z.b2z (0 <? pin_count H (move P u to) e i))
     (fun i => (Z.b2z (0 <? pin_count H P e i) + (if Nat.eqb i to then Z.b2z (pin_count H P e to =? 0) else 0))
               - (if Nat.eqb i from then Z.b2z (pin_count H P e from =? 1) else 0))).
  - rewrite sumZ_minus, sumZ_plus, !sumZ_indicator by apply seq_NoDup.
    assert (E1 : mem to (seq 0 k) = true) by (apply mem_In, in_seq; lia).
    assert (E2 : mem from (seq 0 k) = true) by (apply mem_In, in_seq; pose proof from_lt; lia).
    rewrite E1, E2. lia.
  - intros i _. rewrite pc_move. pose proof (pin_count_nonneg H P e i). pose proof pc_from_pos.
    destruct (Nat.eqb_spec i to) as [->|Hit].
    + replace (Nat.eqb to from) with false by lia. simpl.
      destruct (Z.eqb_spec (pin_count H P e to) 0); destruct (Z.ltb_spec 0 (pin_count H P e to));
      destruct (Z.ltb_spec 0 (pin_count H P e to + 1 - 0)); simpl; lia.
    + destruct (Nat.eqb_spec i from) as [->|Hif]; simpl.
      * destruct (Z.eqb_spec (pin_count H P e from) 1); destruct (Z.ltb_spec 0 (pin_count H P e from));
        destruct (Z.ltb_spec 0 (pin_count H P e from + 0 - 1)); simpl; lia.
      * rewrite Z.add_0_r, Z.sub_0_r. lia.
Qed.

Lemma conn_ge1 : 1 <= connectivity H P e.
Proof. eapply connectivity_pos; eauto. Qed.

End Move.

(** An edge with a pin in [b] is internal iff all its pins are in [b]. *)
Lemma cut_iff H P k e v b :
  pins_assigned H P k e -> In v (pins H e) -> P v = Some b ->
  (1 <? connectivity H P e) = negb (pin_count H P e b =? esize H e).
Proof.
  intros A Hv Hb.
  assert (Hc1 : 1 <= connectivity H P e) by (eapply connectivity_pos; eauto).
  assert (Hin : In b (blocks_of H P e)) by (apply in_blocks_of, pin_count_pos_iff; exists v; tauto).
  destruct (Z.eqb_spec (pin_count H P e b) (esize H e)) as [Heq|Hne]; simpl.
  - apply Z.ltb_ge. unfold connectivity.
    assert (X : incl (blocks_of H P e) [b]).
    { intros c Hc. left. apply in_blocks_of in Hc. destruct (Nat.eq_dec b c) as [|Hn]; [assumption|].
      pose proof (two_pin_counts H P e b c Hn). lia. }
    apply NoDup_incl_length in X; [|apply blocks_of_nodup]. simpl in X. lia.
  - apply Z.ltb_lt. unfold connectivity.
    assert (Hsum := pin_count_total H P k e A).
    assert (Hb_lt : (b < k)%nat) by (destruct (A v Hv) as [b' [Hb' ?]]; congruence).
    assert (Hex : exists c, c <> b /\ 0 < pin_count H P e c).
    { assert (Hd : 0 < sumZ (fun c => if Nat.eqb c b then 0 else pin_count H P e c) (seq 0 k)).
      { rewrite (sumZ_ext _ (fun c => pin_count H P e c - (if Nat.eqb c b then pin_count H P e c else 0))).
        - rewrite sumZ_minus, sumZ_indicator by apply seq_NoDup.
          assert (E2 : mem b (seq 0 k) = true) by (apply mem_In, in_seq; lia). rewrite E2.
          pose proof (pin_count_le_size H P e b). unfold esize in *. lia.
        - intros c _. destruct (Nat.eqb c b); lia. }
      apply sumZ_pos_ex in Hd. destruct Hd as [c [_ Hc]]. exists c.
      destruct (Nat.eqb_spec c b); [lia|]. tauto. }
    destruct Hex as [c [Hcb Hc]]. apply in_blocks_of in Hc.
    assert (X : incl [b; c] (blocks_of H P e)) by (intros x [<-|[<-|[]]]; assumption).
    apply NoDup_incl_length in X; [simpl in X; lia|].
    constructor; [intros [->|[]]; congruence|constructor; [intros []|constructor]].
Qed.

(** soed = km1 + cut on edges whose pins are assigned. *)
Lemma soed_edge_split H P k e :
  pins_assigned H P k e -> pins H e <> [] -> soed_edge H P e = km1_edge H P e + cut_edge H P e.
Proof.
  intros A Hne. unfold soed_edge, km1_edge, cut_edge.
  assert (Hc : 1 <= connectivity H P e).
  { destruct (pins H e) as [|v r] eqn:E; [congruence|].
    destruct (A v) as [b [Hb _]]; [rewrite E; left; reflexivity|].
    eapply connectivity_pos; [rewrite E; left; reflexivity|exact Hb]. }
  destruct (Z.ltb_spec 1 (connectivity H P e)); [ring|].
  replace (connectivity H P e) with 1 by lia. ring.
Qed.

(** Changes of the objective contribution of one edge. *)
Lemma km1_edge_move H k P u from to e :
  NoDup (pins H e) -> In u (pins H e) -> P u = Some from -> from <> to -> (to < k)%nat -> pins_assigned H P k e ->
  km1_edge H (move P u to) e - km1_edge H P e =
  ew H e * (Z.b2z (pin_count H P e to =? 0) - Z.b2z (pin_count H P e from =? 1)).
Proof.
  intros. unfold km1_edge. rewrite (conn_move H k P u from to e) by assumption. ring.
Qed.

Lemma cut_edge_move H k P u from to e :
  NoDup (pins H e) -> In u (pins H e) -> P u = Some from -> from <> to -> (to < k)%nat -> pins_assigned H P k e ->
  cut_edge H (move P u to) e - cut_edge H P e =
  ew H e * (Z.b2z (pin_count H P e from =? esize H e) - Z.b2z (pin_count H P e to + 1 =? esize H e)).
Proof.
  intros Hnd Hu Hpu Hft Hto HA. unfold cut_edge.
  rewrite (cut_iff H P k e u from HA Hu Hpu).
  assert (Hm : move P u to u = Some to) by (unfold move; apply upd_same).
  rewrite (cut_iff H (move P u to) k e u to (pins_assigned_move H P k e u to HA Hto) Hu Hm).
  rewrite (pc_move H k P u from to e) by assumption.
  rewrite Nat.eqb_refl. replace (Nat.eqb to from) with false by lia. simpl.
  replace (pin_count H P e to + 1 - 0) with (pin_count H P e to + 1) by lia.
  destruct (pin_count H P e from =? esize H e); destruct (pin_count H P e to + 1 =? esize H e); simpl; lia.
Qed.

(** A move changes only the contributions of incident edges. *)
Lemma move_sum_edges H P u to (f : hypergraph -> partition -> nat -> Z) :
  wf_hg H -> In u (nodes H) ->
  (forall e, In e (edges H) -> ~ In u (pins H e) -> f H (move P u to) e = f H P e) ->
  sumZ (f H (move P u to)) (edges H) - sumZ (f H P) (edges H) =
  sumZ (fun e => f H (move P u to) e - f H P e) (inc H u).
Proof.
  intros WF Hu Hext. rewrite <- sumZ_minus.
  assert (Hp : Permutation (inc H u) (filter (fun e => mem u (pins H e)) (edges H))).
  { apply NoDup_Permutation; [apply WF; exact Hu|apply NoDup_filter_, WF|].
    intros e. rewrite (wf_inc H WF u e Hu), filter_In, mem_In. tauto. }
  rewrite (sumZ_perm _ _ _ Hp), sumZ_filter. apply sumZ_ext. intros e He.
  destruct (mem_spec u (pins H e)) as [Hi|Hi]; [reflexivity|]. rewrite Hext by assumption. lia.
Qed.

Lemma not_pin_ext H P u to e : ~ In u (pins H e) -> forall v, In v (pins H e) -> move P u to v = P v.
Proof. intros Hn v Hv. unfold move. apply upd_other. intros ->. contradiction. Qed.

Lemma conn_not_pin H P u to e : ~ In u (pins H e) -> connectivity H (move P u to) e = connectivity H P e.
Proof. intros Hn. apply connectivity_ext. apply not_pin_ext. exact Hn. Qed.

Section Totals.
Variables (H : hypergraph) (k : nat) (P : partition) (u from to : nat).
Hypothesis (WF : wf_hg H) (Hun : In u (nodes H)) (Hpu : P u = Some from) (Hft : from <> to)
           (Hto : (to < k)%nat) (HC : complete H P k).

Lemma complete_pins e : In e (edges H) -> pins_assigned H P k e.
Proof. intros He v Hv. apply HC. eapply wf_pins_nodes; eauto. Qed.

Lemma inc_edge e : In e (inc H u) -> In e (edges H) /\ In u (pins H e).
Proof. apply (wf_inc H WF u e Hun). Qed.

Lemma km1_move :
  km1 H (move P u to) - km1 H P =
  sumZ (fun e => ew H e * (Z.b2z (pin_count H P e to =? 0) - Z.b2z (pin_count H P e from =? 1))) (inc H u).
Proof.
  unfold km1. rewrite (move_sum_edges H P u to km1_edge WF Hun).
  - apply sumZ_ext. intros e He. destruct (inc_edge e He) as [He1 He2].
    apply (km1_edge_move H k P u from to e); try assumption; [apply WF; exact He1|apply complete_pins; exact He1].
  - intros e _ Hn. unfold km1_edge. rewrite conn_not_pin by exact Hn. reflexivity.
Qed.

Lemma cut_move :
  cut H (move P u to) - cut H P =
  sumZ (fun e => ew H e * (Z.b2z (pin_count H P e from =? esize H e) - Z.b2z (pin_count H P e to + 1 =? esize H e)))
       (inc H u).
Proof.
  unfold cut. rewrite (move_sum_edges H P u to cut_edge WF Hun).
  - apply sumZ_ext. intros e He. destruct (inc_edge e He) as [He1 He2].
    apply (cut_edge_move H k P u from to e); try assumption; [apply WF; exact He1|apply complete_pins; exact He1].
  - intros e _ Hn. unfold cut_edge. rewrite conn_not_pin by exact Hn. reflexivity.
Qed.

Lemma soed_move :
  soed H (move P u to) - soed H P =
  sumZ (fun e => ew H e * (Z.b2z (pin_count H P e to =? 0) - Z.b2z (pin_count H P e from =? 1)
      + Z.b2z (pin_count H P e from =? esize H e) - Z.b2z (pin_count H P e to + 1 =? esize H e))) (inc H u).
Proof.
  unfold soed. rewrite (move_sum_edges H P u to soed_edge WF Hun).
  - apply sumZ_ext. intros e He. destruct (inc_edge e He) as [He1 He2].
    assert (Hne : pins H e <> []) by (intros E; rewrite E in He2; destruct He2).
    rewrite !(soed_edge_split H _ k e) by
      (try exact Hne; first [apply complete_pins; exact He1 | apply pins_assigned_move; [apply complete_pins; exact He1|exact Hto]]).
    assert (Hnd := wf_pins_nodup H WF e He1).
    pose proof (km1_edge_move H k P u from to e Hnd He2 Hpu Hft Hto (complete_pins e He1)).
    pose proof (cut_edge_move H k P u from to e Hnd He2 Hpu Hft Hto (complete_pins e He1)). lia.
  - intros e _ Hn. unfold soed_edge. rewrite conn_not_pin by exact Hn. reflexivity.
Qed.

End Totals.
