(** Csr.v - adjacency lists in one flat array: the memory layout of _incidence_array/_hyperedges and
    _incident_nets/_hypernodes (static_hypergraph.h) and of the edge array of static_graph.h.
    List [i] is stored at positions [start i .. start i + size i); [start] is the exclusive prefix sum over the sizes
    (TBBPrefixSum, PrefixSum.v). *)
From Verif Require Import Base.

Section Csr.
Variable (ls : nat -> list nat).
Definition start (i : nat) : nat := list_sum (map (fun j => length (ls j)) (seq 0 i)).
Lemma start_S i : start (S i) = (start i + length (ls i))%nat.
Proof. unfold start. rewrite (seq_S i 0), map_app, list_sum_app. simpl. lia. Qed.
Lemma start_mono i j : (i < j)%nat -> (start i + length (ls i) <= start j)%nat.
Proof.
  intros H. induction j as [|j IH]; [lia|]. rewrite start_S. destruct (Nat.eq_dec i j) as [->|]; [lia|].
  specialize (IH ltac:(lia)). lia.
Qed.

(** memcpy of list [l] to position [p]. *)
Fixpoint memcpy (mem : nat -> nat) (p : nat) (l : list nat) : nat -> nat :=
  match l with [] => mem | x :: r => memcpy (upd mem p x) (S p) r end.
Definition slice (mem : nat -> nat) (p n : nat) : list nat := map mem (seq p n).

Lemma memcpy_out mem p l q : (q < p)%nat \/ (p + length l <= q)%nat -> memcpy mem p l q = mem q.
Proof.
  revert mem p. induction l as [|x r IH]; intros mem p H; simpl in *; [reflexivity|].
  rewrite IH by lia. apply upd_other. lia.
Qed.
Lemma memcpy_slice mem p l : slice (memcpy mem p l) p (length l) = l.
Proof.
  unfold slice. revert mem p. induction l as [|x r IH]; intros mem p; simpl; [reflexivity|].
  rewrite memcpy_out by lia. rewrite upd_same. f_equal. apply IH.
Qed.
Lemma slice_ext m1 m2 p n : (forall q, (p <= q < p + n)%nat -> m1 q = m2 q) -> slice m1 p n = slice m2 p n.
Proof. intros H. unfold slice. apply map_ext_in. intros q Hq. apply in_seq in Hq. apply H. lia. Qed.

(** All lists of [order] are written, in this order (any order: the parallel_for may choose it). *)
Definition write_all (mem : nat -> nat) (order : list nat) : nat -> nat :=
  fold_left (fun m i => memcpy m (start i) (ls i)) order mem.

Lemma memcpy_disjoint mem i j : i <> j ->
  slice (memcpy mem (start j) (ls j)) (start i) (length (ls i)) = slice mem (start i) (length (ls i)).
Proof.
  intros H. apply slice_ext. intros q Hq. apply memcpy_out.
  destruct (Nat.lt_total i j) as [C|[C|C]]; [left|congruence|right];
    pose proof (start_mono _ _ C); lia.
Qed.
Theorem csr_roundtrip mem order i : In i order ->
  slice (write_all mem order) (start i) (length (ls i)) = ls i.
Proof.
  unfold write_all. revert mem. induction order as [|j r IH]; intros mem Hin; [destruct Hin|]. simpl.
  destruct (in_dec Nat.eq_dec i r) as [Hr|Hr]; [apply IH; exact Hr|].
  destruct Hin as [->|Hin]; [|contradiction].
  assert (G : forall m, ~ In i r ->
    slice (fold_left (fun m i => memcpy m (start i) (ls i)) r m) (start i) (length (ls i)) =
    slice m (start i) (length (ls i))).
  { clear IH Hr. induction r as [|j r IH]; intros m Hn; simpl; [reflexivity|].
    rewrite IH by (intros C; apply Hn; right; exact C). apply memcpy_disjoint.
    intros C. apply Hn. left. congruence. }
  rewrite G by exact Hr. apply memcpy_slice.
Qed.
End Csr.
