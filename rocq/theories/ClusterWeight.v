(** ClusterWeight.v - weights and counts of the clusters formed by Cluster.v under every schedule. *)
From Verif Require Import Base Cluster.

Lemma sum_upd (g : cpc -> Z) (th : nat -> cpc) n i c : (i < n)%nat ->
  sumZ (fun j => g (upd th i c j)) (seq 0 n) = sumZ (fun j => g (th j)) (seq 0 n) + g c - g (th i).
Proof.
  intros Hi. rewrite (sumZ_change1 (fun j => g (upd th i c j)) (fun j => g (th j)) (seq 0 n) i (seq_NoDup n 0)).
  - assert (X : existsb (Nat.eqb i) (seq 0 n) = true) by (apply existsb_exists; exists i; split; [apply in_seq; lia|apply Nat.eqb_refl]). rewrite X, upd_same. lia.
  - intros y _ Hy. rewrite upd_other by congruence. reflexivity.
Qed.
Lemma sum_cid (h : nat -> nat -> Z) (c : nat -> nat) nodes u r : NoDup nodes -> In u nodes ->
  sumZ (fun x => h x (upd c u r x)) nodes = sumZ (fun x => h x (c x)) nodes + h u r - h u (c u).
Proof.
  intros ND Hu. rewrite (sumZ_change1 (fun x => h x (upd c u r x)) (fun x => h x (c x)) nodes u ND).
  - assert (X : existsb (Nat.eqb u) nodes = true) by (apply existsb_exists; exists u; split; [exact Hu|apply Nat.eqb_refl]). rewrite X, upd_same. lia.
  - intros y _ Hy. rewrite upd_other by congruence. reflexivity.
Qed.

(** Weight of the coarse node that the contraction builds from cluster id r (Contract.v sums exactly these weights). *)
Definition coarse_weight (nodes : list nat) (w : nat -> Z) (st : cluster_st) (r : nat) : Z := sumZ (fun x => if Nat.eqb (cid st x) r then w x else 0) nodes.

Section Bound.
Variables (nodes : list nat) (w : nat -> Z) (com : nat -> nat) (maxw : Z) (n : nat) (W : Z).
Hypothesis (ND : NoDup nodes) (Wn : forall x, In x nodes -> 0 <= w x <= W) (W0 : 0 <= W) (Np : (0 < n)%nat).
Set Default Proof Using "All".
(** Weight on the way to r: threads past the check of :475-480 (a) / past the store of the cluster id (b). *)
Definition way (r : nat) (c : cpc) : Z := match c with CSetId u r' _ | CAdd u r' _ => if Nat.eqb r' r then w u else 0 | _ => 0 end.
Definition pend (r : nat) (c : cpc) : Z := match c with CAdd u r' _ => if Nat.eqb r' r then w u else 0 | _ => 0 end.
Definition pend1 (c : cpc) : Z := match c with CAdd _ _ _ => 1 | _ => 0 end.
Definition limit (r : nat) : Z := Z.max (w r) (maxw + (Z.of_nat n - 1) * W).
Record wbound (st : cluster_st) : Prop := {
  b_cw : forall r, cw st r + sumZ (fun i => way r (cth st i)) (seq 0 n) <= limit r;
  b_cid : forall r, In r nodes -> coarse_weight nodes w st r <= cw st r + sumZ (fun i => pend r (cth st i)) (seq 0 n);
  b_cn : sumZ (fun x => if Nat.eqb (cid st x) x then 0 else 1) nodes <= cn st + sumZ (fun i => pend1 (cth st i)) (seq 0 n)
}.
Lemma way_bounds r c : one_com nodes com (pc_vs c) -> 0 <= way r c <= W.
Proof.
  intros [O _]. destruct c; cbn [way]; try lia; destruct (Nat.eqb _ _); try lia; apply Wn, O; destruct k; left; reflexivity.
Qed.
Lemma way_others r th i : (forall j, one_com nodes com (pc_vs (th j))) -> (i < n)%nat -> sumZ (fun j => way r (th j)) (seq 0 n) - way r (th i) <= (Z.of_nat n - 1) * W.
Proof.
  intros Th Hi. assert (X : sumZ (fun j => way r (upd th i CIdle j)) (seq 0 n) <= sumZ (fun j => if Nat.eqb j i then 0 else W) (seq 0 n)).
  { apply sumZ_le. intros j _. unfold upd. destruct (Nat.eqb j i); [cbn; lia|apply way_bounds, Th]. }
  rewrite (sum_upd (way r) th n i CIdle Hi) in X. cbn [way] in X.
  rewrite (sumZ_ext (fun j => if Nat.eqb j i then 0 else W) (fun j => W - (if Nat.eqb j i then W else 0))) in X by (intros j _; destruct (Nat.eqb j i); lia).
  rewrite sumZ_minus, sumZ_const, seq_length, (sumZ_indicator (seq 0 n) i (fun _ => W) (seq_NoDup n 0)) in X.
  assert (M : mem i (seq 0 n) = true) by (apply mem_In, in_seq; lia). rewrite M in X. lia.
Qed.
Lemma wbound_init : wbound (cl_init w).
Proof.
  constructor; intros.
  - cbn [cl_init cw cth way]. rewrite sumZ_zero by reflexivity. unfold limit. lia.
  - unfold coarse_weight. cbn [cl_init cw cth pend cid]. rewrite (sumZ_zero (fun _ => 0)) by reflexivity.
    rewrite (sumZ_indicator nodes r w ND). assert (M : mem r nodes = true) by (apply mem_In; assumption). rewrite M. lia.
  - cbn [cl_init cid cn cth pend1]. rewrite !sumZ_zero; [lia|reflexivity|intros x _; rewrite Nat.eqb_refl; reflexivity].
Qed.
(** Steps that leave cid, cw and cn alone and put no weight on the way. *)
Lemma wbound_pc st st' i c : wbound st -> (i < n)%nat -> cid st' = cid st -> cw st' = cw st -> cn st' = cn st -> cth st' = upd (cth st) i c ->
  (forall r, way r c <= way r (cth st i)) -> (forall r, pend r (cth st i) = pend r c) -> pend1 c = pend1 (cth st i) -> wbound st'.
Proof.
  intros [A B C] Hi E1 E2 E3 E4 L1 L2 L3. constructor; intros; unfold coarse_weight; rewrite ?E1, ?E2, ?E3, ?E4.
  - rewrite sum_upd by exact Hi. specialize (A r). specialize (L1 r). lia.
  - rewrite sum_upd by exact Hi. specialize (B r H). specialize (L2 r). unfold coarse_weight in B. lia.
  - rewrite sum_upd by exact Hi. lia.
Qed.
Lemma wbound_step st l st' : safe nodes com st -> wbound st -> cl_step nodes w com maxw n st l = Some st' -> wbound st'.
Proof.
  intros Sf Bd E. destruct l as [i u v|i ok]; cbn [cl_step] in E.
  - destruct (cth st i) eqn:Et; try discriminate. destruct (_ && _) eqn:G; [|discriminate]. injection E as <-. repeat (apply andb_true_iff in G; destruct G as [G ?]). apply Nat.ltb_lt in G.
    eapply (wbound_pc st); try reflexivity; try eassumption; rewrite Et; cbn; auto; intros; lia.
  - destruct (i <? n)%nat eqn:Hi; [|discriminate]. apply Nat.ltb_lt in Hi. unfold cl_adv in E. pose proof (s_pc nodes com st Sf i) as O.
    destruct (cth st i) as [|u v|u v|u v|u v|u v|u v|u r k|u r k|u r k|u v r|u v cur sm|u v cur sm|u v|u v|u|u] eqn:Et; try discriminate;
      try (injection E as <-; eapply (wbound_pc st); try reflexivity; try eassumption; rewrite Et; repeat match goal with |- context [if ?b then _ else _] => destruct b | |- context [match ms st ?x with _ => _ end] => destruct (ms st x) end; cbn; auto; intros; lia).
    + destruct (mstate_eqb _ _); injection E as <-; (eapply (wbound_pc st); try reflexivity; try eassumption; rewrite Et; cbn; auto; intros; lia).
    + destruct (mstate_eqb _ _); injection E as <-; (eapply (wbound_pc st); try reflexivity; try eassumption; rewrite Et; cbn; auto; intros; lia).
    + (* the check *) injection E as <-. destruct ((w u + cw st r <=? maxw) && ok) eqn:Q.
      * apply andb_true_iff in Q. destruct Q as [Q _]. apply Z.leb_le in Q. destruct Bd as [A B C]. constructor; intros; unfold coarse_weight; cbn [cid cw cn cth goto].
        -- rewrite sum_upd by exact Hi. rewrite Et. cbn [way]. destruct (Nat.eqb_spec r r0) as [<-|Ne]; [|specialize (A r0); lia].
           pose proof (way_others r (cth st) i (s_pc nodes com st Sf) Hi) as X. rewrite Et in X. cbn [way] in X. unfold limit. lia.
        -- rewrite sum_upd by exact Hi. rewrite Et. cbn [pend]. specialize (B r0 H). unfold coarse_weight in B. lia.
        -- rewrite sum_upd by exact Hi. rewrite Et. cbn [pend1]. lia.
      * eapply (wbound_pc st); try reflexivity; try eassumption; rewrite Et; destruct k; cbn; auto; intros; lia.
    + (* the store of the cluster id *) injection E as <-. destruct Bd as [A B C]. assert (Hu : In u nodes) by (apply O; destruct k; left; reflexivity).
      constructor; intros; unfold coarse_weight; cbn [cid cw cn cth goto set_cid].
      * rewrite sum_upd by exact Hi. rewrite Et. cbn [way]. specialize (A r0). lia.
      * rewrite sum_upd by exact Hi. rewrite Et. cbn [pend]. rewrite (sum_cid (fun x y => if Nat.eqb y r0 then w x else 0) (cid st) nodes u r ND Hu). specialize (B r0 H). unfold coarse_weight in B. pose proof (Wn u Hu).
        destruct (Nat.eqb r r0), (Nat.eqb (cid st u) r0); lia.
      * rewrite sum_upd by exact Hi. rewrite Et. cbn [pend1]. rewrite (sum_cid (fun x y => if Nat.eqb y x then 0 else 1) (cid st) nodes u r ND Hu). destruct (Nat.eqb r u), (Nat.eqb (cid st u) u); lia.
    + (* the addition *) injection E as <-. destruct Bd as [A B C]. constructor; intros; unfold coarse_weight; cbn [cid cw cn cth goto add_cw].
      * rewrite sum_upd by exact Hi. rewrite Et. specialize (A r0). assert (Rz : way r0 (return_to u k) = 0) by (destruct k; reflexivity). rewrite Rz. cbn [way]. unfold upd. rewrite (Nat.eqb_sym r r0). destruct (Nat.eqb_spec r0 r) as [->|Ne]; lia.
      * rewrite sum_upd by exact Hi. rewrite Et. specialize (B r0 H). unfold coarse_weight in B. assert (Rz : pend r0 (return_to u k) = 0) by (destruct k; reflexivity). rewrite Rz. cbn [pend]. unfold upd. rewrite (Nat.eqb_sym r r0). destruct (Nat.eqb_spec r0 r) as [->|Ne]; lia.
      * rewrite sum_upd by exact Hi. rewrite Et. assert (Rz : pend1 (return_to u k) = 0) by (destruct k; reflexivity). rewrite Rz. cbn [pend1]. lia.
Qed.
Lemma wbound_reachable l st : cl_run nodes w com maxw n (cl_init w) l = Some st -> wbound st.
Proof.
  intros E. enough (X : safe nodes com st /\ wbound st) by apply X. apply (cl_run_inv nodes w com maxw n (fun st => safe nodes com st /\ wbound st)) with (l := l) (st := cl_init w); [|split; [apply safe_init; exact 0%nat|apply wbound_init]|exact E].
  intros s a s' [S B] Es. split; [apply (safe_step nodes w com maxw n s a s' S Es)|apply (wbound_step s a s' S B Es)].
Qed.
End Bound.

Lemma done_sum n (st : cluster_st) (g : cpc -> Z) : cl_done n st -> g CIdle = 0 -> sumZ (fun i => g (cth st i)) (seq 0 n) = 0.
Proof. intros D G. apply sumZ_zero. intros i Hi. apply in_seq in Hi. rewrite (D i) by lia. exact G. Qed.

(** C57: whatever the schedule (including every race on the cluster weights and every resolution of cyclic dependencies), once
    all calls have returned the node built from cluster r weighs at most max(w(r), maxw + (threads - 1) * (largest node weight)),
    and the recorded cluster weight is an upper bound of the actual one. *)
Theorem C57_cluster_weight_bound nodes w com maxw n W l st : NoDup nodes -> (forall x, In x nodes -> 0 <= w x <= W) -> (0 < n)%nat ->
  cl_run nodes w com maxw n (cl_init w) l = Some st -> cl_done n st ->
  forall r, In r nodes -> coarse_weight nodes w st r <= cw st r /\ cw st r <= Z.max (w r) (maxw + (Z.of_nat n - 1) * W).
Proof.
  intros ND Wn Np E Dn r Hr. assert (W0 : 0 <= W) by (specialize (Wn r Hr); lia). destruct (wbound_reachable nodes w com maxw n W ND Wn W0 Np l st E) as [A B _]. specialize (A r). specialize (B r Hr).
  rewrite (done_sum n st (way w r) Dn eq_refl) in A. rewrite (done_sum n st (pend w r) Dn eq_refl) in B. unfold limit in A. lia.
Qed.
(** With one thread the limit is kept exactly. *)
Corollary C57_cluster_weight_sequential nodes w com maxw l st : NoDup nodes -> (forall x, In x nodes -> 0 <= w x) ->
  cl_run nodes w com maxw 1 (cl_init w) l = Some st -> cl_done 1 st -> forall r, In r nodes -> coarse_weight nodes w st r <= Z.max (w r) maxw.
Proof.
  intros ND Wn E Dn r Hr. assert (B : forall x, In x nodes -> 0 <= w x <= sumZ w nodes) by (intros x Hx; split; [apply Wn, Hx|apply sumZ_member_le; assumption]).
  destruct (C57_cluster_weight_bound nodes w com maxw 1 (sumZ w nodes) l st ND B ltac:(lia) E Dn r Hr) as [X Y]. lia.
Qed.
