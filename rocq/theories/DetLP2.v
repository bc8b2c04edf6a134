(** DetLP2.v - deterministic label propagation: the second stage terminates, stays within its array and keeps the partition balanced. *)
From Verif Require Import Base Spec SpecLemmas PHG PHGProofs Fixed Conc ConcProofs Objective GainCache Metrics PropsA Scan Revert Construct Prefixes DetLP DetLPApply DetLP1.

Lemma overl_sum k L pw : Z.of_nat (overl k L pw) = sumZ (fun b => Z.b2z (L b <? pw b)) (seq 0 k).
Proof. apply length_filter_sum. Qed.
Lemma overl0 k L pw : overl k L pw = 0%nat <-> (forall b, (b < k)%nat -> pw b <= L b).
Proof.
  split.
  - intros E b Hb. destruct (Z_le_gt_dec (pw b) (L b)) as [|G]; [assumption|exfalso].
    assert (X : In b (filter (fun b => L b <? pw b) (seq 0 k))) by (apply filter_In; rewrite in_seq; split; [lia|apply Z.ltb_lt; lia]).
    unfold overl in E. destruct (filter _ _); [destruct X|discriminate].
  - intros B. unfold overl. assert (E : filter (fun b => L b <? pw b) (seq 0 k) = []); [|rewrite E; reflexivity].
    assert (A : forall b, In b (filter (fun b => L b <? pw b) (seq 0 k)) -> False).
    { intros b Hb. apply filter_In in Hb. rewrite in_seq, Z.ltb_lt in Hb. specialize (B b ltac:(lia)). lia. }
    destruct (filter _ _) as [|b l]; [reflexivity|]. exfalso. apply (A b). left. reflexivity.
Qed.
Section Stage2.
Variables (H : hypergraph) (k : nat) (L : nat -> Z).
Hypothesis Wn : forall v, 0 <= nw H v.
Variables (sm : list lmv) (W0 : nat -> Z).
Hypothesis MK : forall m, In m sm -> (lfrom m < k)%nat /\ (lto m < k)%nat /\ lfrom m <> lto m.
Local Notation N := (length sm).
Local Notation mvi := (mvi sm).

(** Weight change of block b by one move. *)
Definition dc (m : lmv) (b : nat) : Z := (if Nat.eqb (lto m) b then nw H (ln m) else 0) - (if Nat.eqb (lfrom m) b then nw H (ln m) else 0).
Definition vdelta (val : nat -> bool) (b : nat) : Z := sumZ (fun i => if val i then dc (mvi i) b else 0) (seq 0 N).
Lemma mvi_in i : (i < N)%nat -> In (mvi i) sm.
Proof. intros Hi. apply nth_In. exact Hi. Qed.
Lemma delta_valid val b : delta H (valid_moves sm val) b = vdelta val b.
Proof.
  unfold delta, valid_moves, vdelta. rewrite sumZ_flat_map. apply sumZ_ext. intros i _. destruct (val i); [|reflexivity]. cbn [sumZ]. unfold dc. apply Z.add_0_r.
Qed.
Lemma vdelta_upd val i b : (i < N)%nat -> val i = true -> vdelta (upd val i false) b = vdelta val b - dc (mvi i) b.
Proof.
  intros Hi Hv. unfold vdelta. rewrite (sumZ_change1 _ (fun x => if val x then dc (mvi x) b else 0) _ i); [|apply seq_NoDup|].
  - assert (E : existsb (Nat.eqb i) (seq 0 N) = true) by (apply existsb_exists; exists i; rewrite in_seq, Nat.eqb_refl; split; [lia|reflexivity]).
    rewrite E, upd_same, Hv. lia.
  - intros x _ Hx. rewrite upd_other by exact Hx. reflexivity.
Qed.
Lemma rev_pw_eq pw m b : In m sm -> rev_pw H pw m b = pw b - dc m b.
Proof.
  intros Hm. destruct (MK m Hm) as (_ & _ & Ne). unfold rev_pw, dc.
  destruct (Nat.eq_dec b (lfrom m)) as [->|N1].
  - rewrite upd_same, upd_other by exact Ne. destruct (Nat.eqb_spec (lto m) (lfrom m)); [congruence|]. rewrite Nat.eqb_refl. lia.
  - rewrite upd_other by exact N1. destruct (Nat.eqb_spec (lfrom m) b); [congruence|]. destruct (Nat.eq_dec b (lto m)) as [->|N2].
    + rewrite upd_same, Nat.eqb_refl. lia.
    + rewrite upd_other by exact N2. destruct (Nat.eqb_spec (lto m) b); [congruence|]. lia.
Qed.
(** Reverting a move into an overloaded block updates the number of overloaded blocks correctly. *)
Lemma nov_step pw m : In m sm -> L (lto m) < pw (lto m) ->
  rev_nov L (rev_pw H pw m) m (if (L (lfrom m) <? pw (lfrom m) + nw H (ln m)) && (pw (lfrom m) <=? L (lfrom m)) then S (overl k L pw) else overl k L pw) = overl k L (rev_pw H pw m).
Proof.
  intros Hm Ov. destruct (MK m Hm) as (F & T & Ne). apply Nat2Z.inj. rewrite overl_sum.
  rewrite (sum_change2 _ (fun b => Z.b2z (L b <? pw b)) (seq 0 k) (lfrom m) (lto m)); [|apply seq_NoDup|apply in_seq; lia|apply in_seq; lia|exact Ne|].
  2: { intros b _ N1 N2. rewrite rev_pw_eq by exact Hm. unfold dc. destruct (Nat.eqb_spec (lto m) b); [congruence|]. destruct (Nat.eqb_spec (lfrom m) b); [congruence|]. replace (pw b - (0 - 0)) with (pw b) by lia. reflexivity. }
  rewrite <- overl_sum. unfold rev_nov. rewrite !rev_pw_eq by exact Hm.
  unfold dc. rewrite !Nat.eqb_refl. destruct (Nat.eqb_spec (lto m) (lfrom m)); [congruence|]. destruct (Nat.eqb_spec (lfrom m) (lto m)); [congruence|].
  pose proof (Wn (ln m)) as W.
  assert (NZ : (1 <= overl k L pw)%nat).
  { destruct (overl k L pw) eqn:E0; [|lia]. pose proof (proj1 (overl0 k L pw) E0 (lto m) T). lia. }
  destruct (Z.ltb_spec (L (lto m)) (pw (lto m))) as [_|]; [|lia].
  destruct (Z.ltb_spec (L (lfrom m)) (pw (lfrom m) + nw H (ln m))), (Z.leb_spec (pw (lfrom m)) (L (lfrom m)));
  destruct (Z.leb_spec (pw (lto m) - (nw H (ln m) - 0)) (L (lto m)));
  destruct (Z.ltb_spec (L (lfrom m)) (pw (lfrom m) - (0 - nw H (ln m))));
  destruct (Z.ltb_spec (L (lfrom m)) (pw (lfrom m)));
  destruct (Z.ltb_spec (L (lto m)) (pw (lto m) - (nw H (ln m) - 0))); cbn [andb Z.b2z]; lia.
Qed.

(** The tracked weights are the real ones, and the counter counts the overloaded blocks. *)
Definition tracked (pw : nat -> Z) (nov : nat) (val : nat -> bool) : Prop :=
  (forall b, pw b = W0 b + vdelta val b) /\ nov = overl k L pw.
Lemma tracked_rev pw nov val i : (i < N)%nat -> val i = true -> tracked pw nov val -> L (lto (mvi i)) < pw (lto (mvi i)) ->
  tracked (rev_pw H pw (mvi i)) (rev_nov L (rev_pw H pw (mvi i)) (mvi i)
    (if (L (lfrom (mvi i)) <? pw (lfrom (mvi i)) + nw H (ln (mvi i))) && (pw (lfrom (mvi i)) <=? L (lfrom (mvi i))) then S nov else nov)) (upd val i false).
Proof.
  intros Hi Hv [T1 ->] Ov. split.
  - intros b. rewrite rev_pw_eq by (apply mvi_in; exact Hi). rewrite vdelta_upd by assumption. rewrite T1. lia.
  - apply nov_step; [apply mvi_in; exact Hi|exact Ov].
Qed.
Lemma lp1_ok : forall j pw nov val pw' nov' val', (j <= N)%nat -> tracked pw nov val -> (forall i, (i < j)%nat -> val i = true) ->
  lp1 H L sm j pw nov val = (pw', nov', val') -> tracked pw' nov' val' /\ (forall i, val' i = true -> val i = true).
Proof.
  induction j as [|i IH]; intros pw nov val pw' nov' val' Hj T V; cbn [lp1].
  - intros E. inversion E; subst. split; [exact T|auto].
  - destruct (Nat.eqb nov 0); [intros E; inversion E; subst; split; [exact T|auto]|].
    destruct (_ && _) eqn:C.
    + apply andb_true_iff in C. rewrite Z.ltb_lt, Z.leb_le in C. destruct C as [C1 C2]. intros E.
      apply IH in E.
      * destruct E as [E1 E2]. split; [exact E1|]. intros x Hx. specialize (E2 x Hx). unfold upd in E2. destruct (Nat.eqb _ _) in E2; [discriminate|exact E2].
      * lia.
      * pose proof (tracked_rev pw nov val i ltac:(lia) (V i ltac:(lia)) T C1) as R.
        destruct (Z.ltb_spec (L (lfrom (mvi i))) (pw (lfrom (mvi i)) + nw H (ln (mvi i)))); [lia|exact R].
      * intros x Hx. rewrite upd_other by lia. apply V. lia.
    + apply IH; [lia|exact T|intros x Hx; apply V; lia].
Qed.

Hypothesis B0 : forall b, (b < k)%nat -> W0 b <= L b.
(** While some block is overloaded there is a move into an overloaded block that has not been reverted. *)
Lemma pending_ex pw nov val : tracked pw nov val -> nov <> 0%nat -> exists i, (i < N)%nat /\ val i = true /\ L (lto (mvi i)) < pw (lto (mvi i)).
Proof.
  intros [T ->] Nz.
  assert (X : exists b, (b < k)%nat /\ L b < pw b).
  { unfold overl in Nz. destruct (filter _ _) as [|b l] eqn:E; [cbn in Nz; congruence|]. exists b.
    assert (I : In b (b :: l)) by (left; reflexivity). rewrite <- E in I. apply filter_In in I. rewrite in_seq, Z.ltb_lt in I. split; [lia|tauto]. }
  destruct X as (b & Hb & Ob). pose proof (T b) as Tb. pose proof (B0 b Hb) as Bb.
  destruct (sumZ_pos_ex (fun i => if val i then dc (mvi i) b else 0) (seq 0 N)) as (i & Hi & Pi); [unfold vdelta in Tb; lia|].
  apply in_seq in Hi. exists i. split; [lia|]. destruct (val i); [|lia]. split; [reflexivity|]. unfold dc in Pi.
  destruct (Nat.eqb_spec (lto (mvi i)) b) as [->|]; [exact Ob|]. pose proof (Wn (ln (mvi i))). destruct (Nat.eqb _ b); lia.
Qed.
Definition pend (pw : nat -> Z) (val : nat -> bool) (j : nat) : bool := existsb (fun i => val i && (L (lto (mvi i)) <? pw (lto (mvi i)))) (seq 0 j).
Lemma pend_spec pw val j : pend pw val j = true <-> exists i, (i < j)%nat /\ val i = true /\ L (lto (mvi i)) < pw (lto (mvi i)).
Proof.
  unfold pend. rewrite existsb_exists. split.
  - intros (i & Hi & C). exists i. rewrite in_seq in Hi. rewrite andb_true_iff, Z.ltb_lt in C. split; [lia|exact C].
  - intros (i & Hi & C). exists i. rewrite in_seq, andb_true_iff, Z.ltb_lt. split; [lia|exact C].
Qed.
Definition nval (val : nat -> bool) : nat := length (filter val (seq 0 N)).
Lemma nval_upd val i : (i < N)%nat -> val i = true -> nval val = S (nval (upd val i false)).
Proof.
  intros Hi Hv. unfold nval. apply Nat2Z.inj. rewrite Nat2Z.inj_succ, !length_filter_sum.
  rewrite (sumZ_change1 _ (fun x => Z.b2z (upd val i false x)) _ i); [|apply seq_NoDup|intros x _ Hx; rewrite upd_other by exact Hx; reflexivity].
  assert (E : existsb (Nat.eqb i) (seq 0 N) = true) by (apply existsb_exists; exists i; rewrite in_seq, Nat.eqb_refl; split; [lia|reflexivity]).
  rewrite E, upd_same, Hv. cbn [Z.b2z]. lia.
Qed.
Definition mu (j : nat) (pw : nat -> Z) (val : nat -> bool) : nat := (nval val * (2 * N + 2) + (if pend pw val j then j else j + N + 1))%nat.
Record J (j lv : nat) (pw : nat -> Z) (nov : nat) (val : nat -> bool) : Prop := {
  j_tr : tracked pw nov val; j_j : (j <= N)%nat; j_lv : (lv <= N)%nat;
  j_val : forall i, (j <= i < N)%nat -> val i = true -> (i < lv)%nat;
  j_pos : lv = 0%nat \/ (j < lv)%nat
}.
Theorem lp2_ok : forall fuel j lv pw nov val, J j lv pw nov val -> (mu j pw val < fuel)%nat ->
  exists pw' val', lp2 H L sm fuel j lv pw nov val = Some (pw', 0%nat, val') /\ tracked pw' 0 val' /\ (forall i, val' i = true -> val i = true).
Proof.
  induction fuel as [|fuel IH]; intros j lv pw nov val JV Hmu; [lia|]. cbn [lp2]. pose proof JV as [TR Jj Jl Jv Jp].
  destruct (Nat.eqb_spec nov 0) as [->|Nz]; [exists pw, val; auto|].
  destruct (pending_ex pw nov val TR Nz) as (i0 & Hi0 & Vi0 & Oi0).
  set (j1 := if Nat.eqb j 0 then lv else j). set (lv1 := if Nat.eqb j 0 then 0%nat else lv).
  assert (Q : (j1 <= N)%nat /\ (forall i, (j1 <= i < N)%nat -> val i = true -> (i < lv1)%nat) /\ (lv1 = 0%nat \/ (j1 < lv1)%nat) /\ (lv1 <= N)%nat /\ j1 <> 0%nat /\
    (nval val * (2 * N + 2) + (if pend pw val j1 then j1 else j1 + N + 1) <= fuel)%nat).
  { unfold j1, lv1. unfold mu in Hmu. destruct (Nat.eqb_spec j 0) as [->|Nj].
    - assert (A : forall i, (i < N)%nat -> val i = true -> (i < lv)%nat) by (intros i Hi; apply Jv; lia).
      split; [lia|]. split; [intros i Hi Vi; specialize (A i ltac:(lia) Vi); lia|]. split; [left; reflexivity|]. split; [lia|].
      specialize (A i0 Hi0 Vi0) as A0. split; [lia|].
      assert (E : pend pw val lv = true) by (apply pend_spec; exists i0; auto). rewrite E. change (pend pw val 0) with false in Hmu. cbn iota in Hmu. lia.
    - split; [exact Jj|]. split; [exact Jv|]. split; [exact Jp|]. split; [exact Jl|]. split; [exact Nj|]. lia. }
  clearbody j1 lv1. destruct Q as (Qj & Qv & Qp & Ql & Qn & Qm). destruct j1 as [|i]; [congruence|].
  destruct (val i && _) eqn:C.
  - apply andb_true_iff in C. rewrite Z.ltb_lt in C. destruct C as [C1 C2].
    pose proof (tracked_rev pw nov val i ltac:(lia) C1 TR C2) as TR'. pose proof (nval_upd val i ltac:(lia) C1) as NV.
    match type of TR' with tracked ?p ?n ?v => set (p2 := p) in *; set (n2 := n) in *; set (v2 := v) in * end.
    destruct (IH i lv1 p2 n2 v2) as (pw' & val' & E & T' & V').
    + constructor; [exact TR'|lia|exact Ql| |lia].
      unfold v2. intros x Hx Vx. unfold upd in Vx. destruct (Nat.eqb_spec x i) as [->|Nx]; [discriminate|]. apply Qv; [lia|exact Vx].
    + unfold mu. fold v2 in NV. destruct (pend p2 v2 i); destruct (pend pw val (S i)); nia.
    + exists pw', val'. split; [exact E|]. split; [exact T'|]. intros x Hx. specialize (V' x Hx). unfold v2, upd in V'. destruct (Nat.eqb _ _) in V'; [discriminate|exact V'].
  - destruct (IH i (if Nat.eqb lv1 0 && val i then S i else lv1) pw nov val) as (pw' & val' & E & T' & V').
    + constructor; [exact TR|lia| | |].
      * destruct (Nat.eqb lv1 0 && val i); assumption.
      * intros x Hx Vx. destruct (Nat.eq_dec x i) as [->|Nx].
        -- rewrite Vx, andb_true_r. destruct (Nat.eqb_spec lv1 0); lia.
        -- specialize (Qv x ltac:(lia) Vx). destruct (Nat.eqb_spec lv1 0); [lia|]. exact Qv.
      * destruct (Nat.eqb_spec lv1 0) as [->|]; cbn [andb]; [destruct (val i); lia|lia].
    + unfold mu. destruct (pend pw val i) eqn:P1, (pend pw val (S i)) eqn:P2; try lia.
      * exfalso. apply pend_spec in P2. destruct P2 as (x & Hx & Cx1 & Cx2). destruct (Nat.eq_dec x i) as [->|Nx].
        -- apply Z.ltb_lt in Cx2. rewrite Cx1, Cx2 in C. discriminate.
        -- assert (X : pend pw val i = true) by (apply pend_spec; exists x; split; [lia|auto]). congruence.
    + exists pw', val'. auto.
Qed.
End Stage2.
(** More fuel does not change the result. *)
Lemma lp2_fuel H L sm : forall n d j lv pw nov val r, lp2 H L sm n j lv pw nov val = Some r -> lp2 H L sm (n + d) j lv pw nov val = Some r.
Proof.
  induction n as [|n IH]; intros d j lv pw nov val r; cbn [lp2 Nat.add]; [discriminate|].
  destruct (Nat.eqb nov 0); [auto|]. destruct (if Nat.eqb j 0 then lv else j); [auto|]. destruct (_ && _); apply IH.
Qed.
Lemma lp2_unique H L sm n n' j lv pw nov val r r' : lp2 H L sm n j lv pw nov val = Some r -> lp2 H L sm n' j lv pw nov val = Some r' -> r = r'.
Proof. intros E E'. apply (lp2_fuel H L sm n n') in E. apply (lp2_fuel H L sm n' n) in E'. rewrite Nat.add_comm in E'. congruence. Qed.
(** The moves that are left are some of the moves. *)
Lemma valid_in sm val m : In m (valid_moves sm val) -> In m sm.
Proof. unfold valid_moves. rewrite in_flat_map. intros (i & Hi & Hm). apply in_seq in Hi. destruct (val i); [|destruct Hm]. destruct Hm as [<-|[]]. apply nth_In. lia. Qed.
Lemma valid_legal H k P sm val : legal H k P sm -> legal H k P (valid_moves sm val).
Proof.
  intros LG. apply (legal_sub H k P sm); [|apply valid_in|exact LG]. pose proof (lg_nodup _ _ _ _ LG) as ND.
  unfold valid_moves. rewrite flat_map_concat_map, concat_map, map_map, <- flat_map_concat_map.
  assert (E : forall i x, In i (seq 0 (length sm)) -> In x (map ln (if val i then [mvi sm i] else [])) -> (i < length sm)%nat /\ x = nth i (map ln sm) (ln dm)).
  { intros i x Hi Hx. apply in_seq in Hi. destruct (val i); [|destruct Hx]. destruct Hx as [<-|[]]. split; [lia|]. rewrite map_nth. reflexivity. }
  apply NoDup_flat_map_; [apply seq_NoDup| |].
  - intros i _. destruct (val i); [constructor; [intros []|constructor]|constructor].
  - intros i j x Hi Hj Xi Xj. destruct (E i x Hi Xi) as [Li ->]. destruct (E j _ Hj Xj) as [Lj Eq].
    apply (NoDup_nth (map ln sm) (ln dm)); [exact ND|rewrite map_length; exact Li|rewrite map_length; exact Lj|exact Eq].
Qed.
