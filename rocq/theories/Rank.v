(** Rank.v - renumbering by an exclusive prefix sum over 0/1 flags (used by contraction, construction). *)
From Verif Require Import Base PrefixSum.

(** TBBPrefixSum over the flags [p], read with operator[] (PrefixSum.v, [C46_tbb_prefix_sum]). *)
Definition rank (p : nat -> bool) (i : nat) : nat := length (filter p (seq 0 i)).

Lemma rank_is_prefix_sum p i : Z.of_nat (rank p i) = sumZ (fun j => Z.b2z (p j)) (seq 0 i).
Proof. unfold rank. apply length_filter_sum. Qed.
(** For every execution of the parallel scan over the flags. *)
Lemma rank_scan (p : nat -> bool) (n : nat) (s : pst (T := Z)) :
  let data := fun j => Z.b2z (p j) in
  steps Z.add 0 true (ps_init 0 (mkPM data data)) s -> ps_done n s ->
  forall i, (i <= n)%nat -> ps_at (p_out (s_mem s)) i = Z.of_nat (rank p i).
Proof.
  intros data Hs Hd i Hi. rewrite rank_is_prefix_sum. apply (proj1 (C46_tbb_prefix_sum data n s Hs Hd)). exact Hi.
Qed.

Lemma rank_S p i : rank p (S i) = (rank p i + (if p i then 1 else 0))%nat.
Proof. unfold rank. rewrite (seq_S i 0), filter_app, app_length. simpl. destruct (p i); reflexivity. Qed.
Lemma rank_mono p i j : (i <= j)%nat -> (rank p i <= rank p j)%nat.
Proof. induction 1 as [|j Hij IH]; [lia|]. rewrite rank_S. lia. Qed.
Lemma rank_lt p i j : (i < j)%nat -> p i = true -> (rank p i < rank p j)%nat.
Proof. intros H Hp. pose proof (rank_mono p (S i) j H). rewrite rank_S, Hp in H0. lia. Qed.
Lemma rank_inj p i j : p i = true -> p j = true -> rank p i = rank p j -> i = j.
Proof.
  intros Hi Hj H. destruct (Nat.lt_total i j) as [C|[C|C]]; [|exact C|].
  - pose proof (rank_lt p i j C Hi). lia.
  - pose proof (rank_lt p j i C Hj). lia.
Qed.
Lemma rank_surj p m r : (r < rank p m)%nat -> exists i, (i < m)%nat /\ p i = true /\ rank p i = r.
Proof.
  induction m as [|m IH]; intros H; [unfold rank in H; simpl in H; lia|].
  rewrite rank_S in H. destruct (Nat.lt_ge_cases r (rank p m)) as [C|C].
  - destruct (IH C) as [i [H1 [H2 H3]]]. exists i. repeat split; [lia|exact H2|exact H3].
  - destruct (p m) eqn:E; [|lia]. exists m. repeat split; [lia|exact E|lia].
Qed.
Lemma rank_ext p q m : (forall i, (i < m)%nat -> p i = q i) -> rank p m = rank q m.
Proof.
  intros H. unfold rank. f_equal. apply filter_ext_in. intros i Hi. apply in_seq in Hi. apply H. lia.
Qed.

(** Writing the value of every flagged index to the position given by its rank, in any order. *)
Definition scatter {A} (p : nat -> bool) (val : nat -> A) (order : list nat) (a : nat -> A) : nat -> A :=
  fold_left (fun a i => if p i then upd a (rank p i) (val i) else a) order a.
Lemma scatter_spec {A} p (val : nat -> A) order a i :
  p i = true -> In i order -> scatter p val order a (rank p i) = val i.
Proof.
  intros Hp. unfold scatter. revert a. induction order as [|j r IH]; intros a Hin; [destruct Hin|]. simpl.
  destruct (in_dec Nat.eq_dec i r) as [Hr|Hr]; [apply IH; exact Hr|].
  destruct Hin as [->|Hin]; [|contradiction]. rewrite Hp.
  assert (G : forall a, ~ In i r ->
    fold_left (fun a i => if p i then upd a (rank p i) (val i) else a) r a (rank p i) = a (rank p i)).
  { clear IH Hr. induction r as [|j r IH]; intros b Hn; simpl; [reflexivity|].
    rewrite IH by (intros C; apply Hn; right; exact C). destruct (p j) eqn:E; [|reflexivity].
    apply upd_other. intros C. apply Hn. left. symmetry. apply (rank_inj p i j Hp E C). }
  rewrite G by exact Hr. apply upd_same.
Qed.
