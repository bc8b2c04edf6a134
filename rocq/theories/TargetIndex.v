(** TargetIndex.v - the table index of block sets, the queries on modified sets and the connectivity test (target_graph.h, target_graph.cpp). *)
From Verif Require Import Base Sorting Weights TargetSpec TargetGraph.

(** Iterating a bitset yields its blocks in ascending order (static_bitset.h:52-119). *)
Definition elems (n : nat) (S : bset) : list nat := filter S (seq 0 n).

(** target_graph.h:218-230 / steiner_tree.cpp:37-48: index += multiplier * block; multiplier *= k; last_block = block.
    (steiner_tree.cpp computes [multiplier] in 32 bits; it is at most k^max_connectivity <= MEMORY_LIMIT there.) *)
Definition index_step (k : nat) (s : nat * nat * option nat) (b : nat) : nat * nat * option nat :=
  let '(i, m, _) := s in ((i + m * b)%nat, (m * k)%nat, Some b).
Definition index_of (k : nat) (l : list nat) : nat :=
  match fold_left (index_step k) l (0%nat, 1%nat, None) with
  | (i, m, Some b) => (i + (if (m =? k)%nat then b * k else 0))%nat
  | (_, _, None) => 0%nat
  end.
Definition set_index (k : nat) (S : bset) : nat := index_of k (elems k S).

(** ** Iteration order *)
Lemma elems_In n S x : In x (elems n S) <-> (x < n)%nat /\ S x = true.
Proof. unfold elems. rewrite filter_In, in_seq. intuition lia. Qed.

Lemma strict_seq a n : strict (seq a n).
Proof.
  revert a. induction n as [|n IH]; intros a; cbn [seq]; constructor; [apply IH|]. apply Forall_forall. intros x Hx. apply in_seq in Hx. lia.
Qed.
Lemma strict_filter p l : strict l -> strict (filter p l).
Proof.
  induction 1 as [|x l SL IH F]; cbn [filter]; [constructor|]. destruct (p x); [|exact IH]. constructor; [exact IH|].
  apply Forall_forall. intros y Hy. apply filter_In in Hy. rewrite Forall_forall in F. apply F. tauto.
Qed.
Lemma elems_strict n S : strict (elems n S). Proof. apply strict_filter, strict_seq. Qed.
Lemma elems_ext n S S' : (forall x, (x < n)%nat -> S x = S' x) -> elems n S = elems n S'.
Proof. intros E. unfold elems. apply filter_ext_in. intros x Hx. apply in_seq in Hx. apply E. lia. Qed.

(** ** The index is a positional number *)
Fixpoint val (k : nat) (l : list nat) : nat := match l with [] => 0%nat | b :: r => (b + k * val k r)%nat end.

Lemma index_fold k l i m o :
  fold_left (index_step k) l (i, m, o) = ((i + m * val k l)%nat, (m * k ^ length l)%nat, match l with [] => o | _ => Some (last l 0%nat) end).
Proof.
  revert i m o. induction l as [|b l IH]; intros i m o; cbn [fold_left val length Nat.pow].
  - f_equal. f_equal; lia.
  - unfold index_step at 2. rewrite IH. f_equal; [f_equal; nia|]. destruct l; reflexivity.
Qed.

Definition digits (l : list nat) : list nat := match l with [b] => [b; b] | _ => l end.

Lemma index_digits k l : (2 <= k)%nat -> index_of k l = val k (digits l).
Proof.
  intros Hk. unfold index_of. rewrite index_fold. destruct l as [|b [|c l]]; [reflexivity| |].
  - cbn [length val digits last]. replace (1 * k ^ 1)%nat with k by (cbn; lia). rewrite Nat.eqb_refl. nia.
  - cbn [digits]. replace (1 * k ^ length (b :: c :: l) =? k)%nat with false; [lia|].
    symmetry. apply Nat.eqb_neq. cbn [length Nat.pow]. assert (k ^ length l <> 0)%nat by (apply Nat.pow_nonzero; lia). nia.
Qed.

Lemma val_zero k l : (1 <= k)%nat -> val k l = 0%nat -> last l 0%nat = 0%nat.
Proof.
  intros Hk. induction l as [|b l IH]; cbn [val last]; [reflexivity|]. intros E. destruct l; [lia|]. apply IH. nia.
Qed.

Lemma val_inj k l1 l2 :
  (2 <= k)%nat -> (forall x, In x l1 -> (x < k)%nat) -> (forall x, In x l2 -> (x < k)%nat) ->
  (l1 = [] \/ last l1 0%nat <> 0%nat) -> (l2 = [] \/ last l2 0%nat <> 0%nat) -> val k l1 = val k l2 -> l1 = l2.
Proof.
  intros Hk. revert l2. induction l1 as [|a l1 IH]; intros l2 B1 B2 L1 L2 E.
  - destruct L2 as [->|L2]; [reflexivity|]. cbn [val] in E. symmetry in E. apply val_zero in E; [|lia]. congruence.
  - destruct L1 as [L1|L1]; [discriminate|].
    destruct l2 as [|b l2].
    + cbn [val] in E. change (val k (a :: l1) = 0%nat) in E. apply val_zero in E; [|lia]. congruence.
    + destruct L2 as [L2|L2]; [discriminate|]. cbn [val] in E.
      pose proof (B1 a (or_introl eq_refl)). pose proof (B2 b (or_introl eq_refl)).
      assert (val k l1 = val k l2) by nia. assert (a = b) by nia. subst b. f_equal. apply IH.
      * intros x Hx. apply B1. right; exact Hx.
      * intros x Hx. apply B2. right; exact Hx.
      * destruct l1; [left; reflexivity|right; exact L1].
      * destruct l2; [left; reflexivity|right; exact L2].
      * assumption.
Qed.

Lemma strict_last_pos a b l : strict (a :: b :: l) -> last (a :: b :: l) 0%nat <> 0%nat.
Proof.
  revert a b. induction l as [|c l IH]; intros a b SL; inversion SL as [|x y SL' F]; subst.
  - cbn. inversion F. lia.
  - change (last (b :: c :: l) 0%nat <> 0%nat). apply IH. exact SL'.
Qed.

Lemma index_inj k l1 l2 :
  (2 <= k)%nat -> strict l1 -> strict l2 -> (forall x, In x l1 -> (x < k)%nat) -> (forall x, In x l2 -> (x < k)%nat) ->
  l1 <> [] -> l2 <> [] -> index_of k l1 = index_of k l2 -> l1 = l2.
Proof.
  intros Hk S1 S2 B1 B2 N1 N2 E. rewrite !index_digits in E by assumption.
  assert (Hz : forall l, strict l -> l <> [] -> val k (digits l) = 0%nat -> l = [0%nat]).
  { intros l SL NL EL. destruct l as [|b [|c l]]; [congruence| |].
    - cbn [digits val] in EL. f_equal. lia.
    - exfalso. cbn [digits] in EL. apply val_zero in EL; [|lia]. exact (strict_last_pos _ _ _ SL EL). }
  destruct (Nat.eq_dec (val k (digits l1)) 0) as [Z|Z].
  - rewrite (Hz l1 S1 N1 Z). rewrite Z in E. symmetry in E. rewrite (Hz l2 S2 N2 E). reflexivity.
  - assert (D : digits l1 = digits l2).
    { apply (val_inj k); try assumption.
      - intros x Hx. apply B1. destruct l1 as [|b [|c l]]; cbn [digits] in Hx; [exact Hx| |exact Hx]. destruct Hx as [->|[->|[]]]; left; reflexivity.
      - intros x Hx. apply B2. destruct l2 as [|b [|c l]]; cbn [digits] in Hx; [exact Hx| |exact Hx]. destruct Hx as [->|[->|[]]]; left; reflexivity.
      - right. destruct l1 as [|b [|c l]]; [congruence| |apply strict_last_pos; exact S1]. cbn [digits last val] in *. intros ->. lia.
      - right. rewrite E in Z. destruct l2 as [|b [|c l]]; [congruence| |apply strict_last_pos; exact S2]. cbn [digits last val] in *. intros ->. lia. }
    clear - D S1 S2. destruct l1 as [|a [|b l1]], l2 as [|c [|d l2]]; cbn [digits] in D; try congruence.
    + exfalso. inversion D; subst. inversion S2 as [|x y SL' F]; subst. inversion F. lia.
    + exfalso. inversion D; subst. inversion S1 as [|x y SL' F]; subst. inversion F. lia.
Qed.

(** Nonempty sets over [0,n). *)
Definition nonempty (n : nat) (S : bset) : Prop := exists x, (x < n)%nat /\ S x = true.
Definition card (n : nat) (S : bset) : nat := length (elems n S).

Lemma elems_nonempty n S : nonempty n S -> elems n S <> [].
Proof. intros (x & Hx & HS) E. assert (In x (elems n S)) by (apply elems_In; tauto). rewrite E in H. destruct H. Qed.

Lemma set_index_inj n S S' :
  (2 <= n)%nat -> nonempty n S -> nonempty n S' -> set_index n S = set_index n S' -> forall x, (x < n)%nat -> S x = S' x.
Proof.
  intros Hn N N' E x Hx. unfold set_index in E.
  apply index_inj in E; try assumption; try apply elems_strict; try (intros y Hy; apply elems_In in Hy; tauto); try (apply elems_nonempty; assumption).
  assert (In x (elems n S) <-> In x (elems n S')) by (rewrite E; tauto). rewrite !elems_In in H.
  destruct (S x), (S' x); try reflexivity; intuition congruence.
Qed.

(** The index stays inside the table of k^max_connectivity entries (target_graph.cpp:49, :55). *)
Lemma val_bound k l : (1 <= k)%nat -> (forall x, In x l -> (x < k)%nat) -> (val k l < k ^ length l)%nat.
Proof.
  intros Hk. induction l as [|b l IH]; intros B; cbn [val length Nat.pow]; [lia|].
  pose proof (B b (or_introl eq_refl)). specialize (IH (fun x Hx => B x (or_intror Hx))). nia.
Qed.

Lemma set_index_bound n S m : (2 <= n)%nat -> (2 <= m)%nat -> (card n S <= m)%nat -> (set_index n S < n ^ m)%nat.
Proof.
  intros Hn Hm Hc. unfold set_index, card in *. rewrite index_digits by exact Hn.
  assert (B : forall x, In x (elems n S) -> (x < n)%nat) by (intros x Hx; apply elems_In in Hx; tauto).
  destruct (elems n S) as [|b [|c l]].
  - cbn [digits val]. apply Nat.neq_0_lt_0, Nat.pow_nonzero. lia.
  - cbn [digits val]. pose proof (B b (or_introl eq_refl)). assert (n ^ 2 <= n ^ m)%nat by (apply Nat.pow_le_mono_r; lia). cbn [Nat.pow] in *. nia.
  - cbn [digits]. eapply Nat.lt_le_trans; [apply val_bound; [lia|exact B]|]. apply Nat.pow_le_mono_r; [lia|exact Hc].
Qed.

(** Entries of single blocks and of pairs. *)
Lemma set_index_pair n S u v :
  (2 <= n)%nat -> (u <= v)%nat -> (v < n)%nat -> (forall x, (x < n)%nat -> S x = ((x =? u) || (x =? v))%nat) -> set_index n S = pidx n u v.
Proof.
  intros Hn Huv Hv E. unfold set_index. rewrite index_digits by exact Hn.
  destruct (Nat.eq_dec u v) as [->|Ne].
  - replace (elems n S) with [v]; [cbn [digits val]; unfold pidx; lia|].
    apply strict_ext; [repeat constructor|apply elems_strict|]. intros x. rewrite elems_In. cbn [In]. split.
    + intros [<-|[]]. split; [exact Hv|]. rewrite E by exact Hv. rewrite Nat.eqb_refl. reflexivity.
    + intros [Hx HS]. rewrite E in HS by exact Hx. left. apply orb_true_iff in HS. rewrite !Nat.eqb_eq in HS. lia.
  - replace (elems n S) with [u; v]; [cbn [digits val]; unfold pidx; lia|].
    apply strict_ext; [constructor; [repeat constructor|repeat constructor; lia]|apply elems_strict|]. intros x. rewrite elems_In. cbn [In]. split.
    + intros [<-|[<-|[]]]; (split; [lia|]); rewrite E by lia; rewrite Nat.eqb_refl; [reflexivity|apply orb_true_r].
    + intros [Hx HS]. rewrite E in HS by exact Hx. apply orb_true_iff in HS. rewrite !Nat.eqb_eq in HS. lia.
Qed.

Lemma set_index_pair_inv n S u v :
  (2 <= n)%nat -> (u < n)%nat -> (v < n)%nat -> nonempty n S -> set_index n S = pidx n u v ->
  (u <= v)%nat /\ forall x, (x < n)%nat -> S x = ((x =? u) || (x =? v))%nat.
Proof.
  intros Hn Hu Hv NS E.
  destruct (le_lt_dec u v) as [Huv|Huv].
  - split; [exact Huv|]. apply set_index_inj; try assumption.
    + exists u. split; [exact Hu|]. rewrite Nat.eqb_refl. reflexivity.
    + rewrite E. symmetry. apply set_index_pair; try assumption. reflexivity.
  - exfalso. unfold set_index in E. rewrite index_digits in E by exact Hn. pose proof (elems_strict n S) as SL.
    assert (B : forall x, In x (elems n S) -> (x < n)%nat) by (intros x Hx; apply elems_In in Hx; tauto).
    pose proof (elems_nonempty n S NS) as NE. unfold pidx in E.
    destruct (elems n S) as [|a [|b [|c l]]]; [congruence| | |].
    + cbn [digits val] in E. pose proof (B a (or_introl eq_refl)). assert (a = v) by nia. nia.
    + cbn [digits val] in E. pose proof (B a (or_introl eq_refl)). pose proof (B b (or_intror (or_introl eq_refl))).
      inversion SL as [|x y SL' F]; subst. inversion F. assert (b = v) by nia. nia.
    + cbn [digits val] in E. pose proof (B a (or_introl eq_refl)). pose proof (B b (or_intror (or_introl eq_refl))).
      assert (L : last (b :: c :: l) 0%nat <> 0%nat) by (apply strict_last_pos; inversion SL; assumption).
      assert (val n (c :: l) <> 0%nat) by (intros Z; apply val_zero in Z; [|lia]; apply L; exact Z).
      cbn [val] in *. set (q := (c + n * val n l)%nat) in *. clearbody q. assert (v = b + n * q)%nat by nia. nia.
Qed.

Lemma set_index_big n S : (2 <= n)%nat -> (3 <= card n S)%nat -> (n * n <= set_index n S)%nat.
Proof.
  intros Hn Hc. unfold set_index, card in *. rewrite index_digits by exact Hn. pose proof (elems_strict n S) as SL.
  destruct (elems n S) as [|a [|b [|c l]]]; cbn [length] in Hc; try lia. cbn [digits].
  assert (L : last (b :: c :: l) 0%nat <> 0%nat) by (apply strict_last_pos; inversion SL; assumption).
  assert (val n (c :: l) <> 0%nat) by (intros Z; apply val_zero in Z; [|lia]; apply L; exact Z).
  change (val n (a :: b :: c :: l)) with (a + n * (b + n * val n (c :: l)))%nat. nia.
Qed.

(** ** The queries on modified sets (target_graph.h:141-184): the caller's set is changed in place and restored afterwards.
    Result: the returned distance and the caller's set. *)
Section Query.
Variable dist : bset -> Z.
Definition distanceWithBlock (S : bset) (b : nat) : Z * bset :=
  let was_set := S b in
  let S1 := upd S b true in
  (dist S1, if negb was_set then upd S1 b false else S1).
Definition distanceWithoutBlock (S : bset) (b : nat) : Z * bset :=
  let was_set := S b in
  let S1 := upd S b false in
  (dist S1, if was_set then upd S1 b true else S1).
Definition distanceAfterExchangingBlocks (S : bset) (removed added : nat) : Z * bset :=
  let was_removed_set := S removed in
  let was_added_set := S added in
  let S1 := upd (upd S removed false) added true in
  let S2 := if was_removed_set then upd S1 removed true else S1 in
  (dist S1, if negb was_added_set then upd S2 added false else S2).
End Query.

Theorem C43_queries_leave_set_unchanged (dist : bset -> Z) (S : bset) (r b : nat) :
  (exists S1, (forall x, S1 x = true <-> S x = true \/ x = b) /\
     fst (distanceWithBlock dist S b) = dist S1 /\ forall x, snd (distanceWithBlock dist S b) x = S x) /\
  (exists S1, (forall x, S1 x = true <-> S x = true /\ x <> b) /\
     fst (distanceWithoutBlock dist S b) = dist S1 /\ forall x, snd (distanceWithoutBlock dist S b) x = S x) /\
  (exists S1, (forall x, S1 x = true <-> (S x = true /\ x <> r) \/ x = b) /\
     fst (distanceAfterExchangingBlocks dist S r b) = dist S1 /\ forall x, snd (distanceAfterExchangingBlocks dist S r b) x = S x).
Proof.
  split; [|split].
  - eexists. split; [|split; [reflexivity|]].
    + intros x. unfold upd. destruct (Nat.eqb_spec x b); subst; intuition congruence.
    + intros x. cbn. destruct (S b) eqn:E; cbn [negb]; unfold upd; destruct (Nat.eqb_spec x b); subst; congruence.
  - eexists. split; [|split; [reflexivity|]].
    + intros x. unfold upd. destruct (Nat.eqb_spec x b); subst; intuition congruence.
    + intros x. cbn. destruct (S b) eqn:E; cbn [negb]; unfold upd; destruct (Nat.eqb_spec x b); subst; congruence.
  - eexists. split; [|split; [reflexivity|]].
    + intros x. unfold upd. destruct (Nat.eqb_spec x b), (Nat.eqb_spec x r); subst; intuition congruence.
    + intros x. cbn. destruct (S b) eqn:E; cbn [negb]; destruct (S r) eqn:F; unfold upd; destruct (Nat.eqb_spec x b), (Nat.eqb_spec x r); subst; congruence.
Qed.

(** The table index: within the table, and different sets have different entries. *)
Theorem C43_index_injective n S S' :
  (2 <= n)%nat -> within n S -> within n S' -> (exists x, S x = true) -> (exists x, S' x = true) ->
  set_index n S = set_index n S' -> forall x, S x = S' x.
Proof.
  intros Hn W W' [a Ha] [b Hb] E x.
  assert (X : forall x, (x < n)%nat -> S x = S' x) by (apply set_index_inj; [exact Hn|exists a; auto|exists b; auto|exact E]).
  destruct (lt_dec x n) as [Hx|Hx]; [apply X; exact Hx|].
  destruct (S x) eqn:E1; [apply W in E1; lia|]. destruct (S' x) eqn:E2; [apply W' in E2; lia|]. reflexivity.
Qed.
Theorem C43_index_in_table n S m :
  (2 <= n)%nat -> (2 <= m)%nat -> (length (filter S (seq 0 n)) <= m)%nat -> (set_index n S < n ^ m)%nat.
Proof. apply set_index_bound. Qed.

Example ex_C43 : set_index 4 (fun x => (x =? 1) || (x =? 3))%nat = 13%nat /\ set_index 4 (fun x => (x =? 3))%nat = 15%nat
  /\ set_index 4 (fun x => (x =? 1) || (x =? 2) || (x =? 3))%nat = 57%nat.
Proof. repeat split; vm_compute; reflexivity. Qed.

(** ** TargetGraph::inputGraphIsConnected (target_graph.cpp:160-182): stack based depth-first search from node 0.
    State: visited, stack (top first), num_visited. *)
Definition scan_step (s : (nat -> bool) * list nat * nat) (x : nat) : (nat -> bool) * list nat * nat :=
  let '(vis, st, c) := s in if vis x then s else (upd vis x true, x :: st, S c).
Definition neighbors (G : list arc) (u : nat) : list nat := map dst (filter (fun a => src a =? u)%nat G).
Fixpoint dfs (fuel : nat) (n : nat) (G : list arc) (s : (nat -> bool) * list nat * nat) : option nat :=
  match fuel with
  | O => None
  | S fuel =>
    let '(vis, st, c) := s in
    match st with
    | u :: st' => if (c <? n)%nat then dfs fuel n G (fold_left scan_step (neighbors G u) (vis, st', c)) else Some c
    | [] => Some c
    end
  end.
Definition inputGraphIsConnected (n : nat) (G : list arc) : option bool :=
  option_map (fun c => (c =? n)%nat) (dfs (2 * n + 1) n G (upd (fun _ => false) 0%nat true, [0%nat], 1%nat)).

Definition dfs_inv (n : nat) (G : list arc) (s : (nat -> bool) * list nat * nat) : Prop :=
  let '(vis, st, c) := s in
  vis 0%nat = true /\ (forall x, vis x = true -> (x < n)%nat /\ exists w, walk G 0 x w) /\ (forall x, In x st -> vis x = true) /\
  c = length (filter vis (seq 0 n)).
(** Nodes visited and popped have only visited neighbours; [pend] is the node being scanned with its remaining neighbours. *)
Definition dfs_closed (G : list arc) (s : (nat -> bool) * list nat * nat) (skip : nat -> Prop) : Prop :=
  let '(vis, st, c) := s in forall u v a, vis u = true -> ~ In u st -> ~ skip u -> In (u, v, a) G -> vis v = true.

Lemma count_upd n (vis : nat -> bool) x : (x < n)%nat -> vis x = false ->
  length (filter (upd vis x true) (seq 0 n)) = S (length (filter vis (seq 0 n))).
Proof.
  intros Hx Hv.
  assert (A : forall a m, length (filter (upd vis x true) (seq a m)) = (length (filter vis (seq a m)) + if ((a <=? x) && (x <? a + m))%nat then 1 else 0)%nat).
  { clear Hx. intros a m. revert a. induction m as [|m IH]; intros a; cbn [seq filter].
    - destruct (Nat.leb_spec a x), (Nat.ltb_spec x (a + 0)); cbn; lia.
    - unfold upd at 1. destruct (Nat.eqb_spec a x) as [->|Ne].
      + rewrite Hv. cbn [length]. rewrite IH. destruct (Nat.leb_spec (S x) x), (Nat.leb_spec x x), (Nat.ltb_spec x (x + S m)); cbn [andb]; lia.
      + destruct (vis a); cbn [length]; rewrite IH; destruct (Nat.leb_spec (S a) x), (Nat.leb_spec a x), (Nat.ltb_spec x (S a + m)), (Nat.ltb_spec x (a + S m)); cbn [andb]; lia. }
  rewrite A. destruct (Nat.leb_spec 0 x), (Nat.ltb_spec x (0 + n)); cbn [andb]; lia.
Qed.

Lemma scan_ok n G u : target n G -> (u < n)%nat -> (exists w, walk G 0 u w) -> forall l s,
  (forall x, In x l -> exists a, In (u, x, a) G) -> dfs_inv n G s -> dfs_closed G s (fun x => x = u) ->
  let s' := fold_left scan_step l s in
  dfs_inv n G s' /\ dfs_closed G s' (fun x => x = u) /\ (forall x, In x l -> fst (fst s') x = true) /\
  (forall x, fst (fst s) x = true -> fst (fst s') x = true) /\
  (exists new, snd (fst s') = new ++ snd (fst s) /\ snd s' = (snd s + length new)%nat /\ (forall x, In x new -> fst (fst s) x = false)).
Proof.
  intros TG Hu [wu Wu] l. induction l as [|x l IH]; intros s Hl I C; cbn [fold_left]; cbv zeta.
  - split; [exact I|]. split; [exact C|]. split; [intros x []|]. split; [auto|]. exists []. split; [reflexivity|]. split; [cbn; lia|intros x []].
  - destruct s as [[vis st] c]. destruct I as (I0 & I1 & I2 & I3).
    assert (Hl' : forall y, In y l -> exists a, In (u, y, a) G) by (intros y Hy; apply Hl; right; exact Hy).
    assert (Es : scan_step (vis, st, c) x = if vis x then (vis, st, c) else (upd vis x true, x :: st, S c)) by reflexivity.
    rewrite Es. clear Es. destruct (vis x) eqn:Ex.
    + destruct (IH (vis, st, c) Hl' (conj I0 (conj I1 (conj I2 I3))) C) as (A & B & D & E & F).
      split; [exact A|]. split; [exact B|]. split; [intros y [->|Hy]; [apply E; exact Ex|apply D; exact Hy]|]. split; [exact E|exact F].
    + destruct (Hl x (or_introl eq_refl)) as [a Ha]. destruct (tg_src _ _ TG _ _ _ Ha) as [_ Hx].
      destruct (IH (upd vis x true, x :: st, S c) Hl') as (A & B & D & E & F).
      * split; [unfold upd; destruct (Nat.eqb_spec 0 x); [reflexivity|exact I0]|]. split; [|split].
        -- intros y Hy. unfold upd in Hy. destruct (Nat.eqb_spec y x) as [Ey|Ne]; [|apply I1; exact Hy]. rewrite Ey. split; [exact Hx|].
           exists (wu + (a + 0)). eapply walk_app; [exact Wu|]. econstructor; [exact Ha|constructor].
        -- intros y [<-|Hy]; [apply upd_same|]. unfold upd. destruct (Nat.eqb_spec y x); [reflexivity|apply I2; exact Hy].
        -- rewrite count_upd by assumption. congruence.
      * intros p q b Hp Hq Hs Hb. unfold upd in *. destruct (Nat.eqb_spec p x) as [->|Ne]; [exfalso; apply Hq; left; reflexivity|].
        destruct (Nat.eqb_spec q x); [reflexivity|]. apply (C p q b Hp); [intros Hi; apply Hq; right; exact Hi|exact Hs|exact Hb].
      * cbn [fst snd] in *. split; [exact A|]. split; [exact B|]. split; [|split].
        -- intros y [->|Hy]; [apply E, upd_same|apply D; exact Hy].
        -- intros y Hy. apply E. unfold upd. destruct (Nat.eqb_spec y x); [reflexivity|exact Hy].
        -- destruct F as (new & F1 & F2 & F3). exists (new ++ [x]). split; [rewrite <- app_assoc; exact F1|]. split; [rewrite app_length; cbn [length]; lia|].
           intros y Hy. apply in_app_iff in Hy. destruct Hy as [Hy|[<-|[]]]; [|exact Ex]. specialize (F3 y Hy). unfold upd in F3. destruct (Nat.eqb_spec y x); [discriminate|exact F3].
Qed.

Lemma filter_len_le (p : nat -> bool) l : (length (filter p l) <= length l)%nat.
Proof. induction l as [|x l IH]; cbn; [lia|]. destruct (p x); cbn; lia. Qed.

Lemma dfs_ok n G : target n G -> forall fuel s,
  dfs_inv n G s -> dfs_closed G s (fun _ => False) -> (2 * (n - snd s) + length (snd (fst s)) + 1 <= fuel)%nat -> (snd s <= n)%nat ->
  exists c vis', dfs fuel n G s = Some c /\ vis' 0%nat = true /\ (forall x, vis' x = true -> (x < n)%nat /\ exists w, walk G 0 x w) /\
    c = length (filter vis' (seq 0 n)) /\ (c = n \/ forall u v a, vis' u = true -> In (u, v, a) G -> vis' v = true).
Proof.
  intros TG fuel. induction fuel as [|fuel IH]; intros [[vis st] c] I C F Hc; cbn [fst snd] in *; [lia|].
  destruct I as (I0 & I1 & I2 & I3). cbn [dfs]. destruct st as [|u st].
  - exists c, vis. split; [reflexivity|]. split; [exact I0|]. split; [exact I1|]. split; [exact I3|]. right. intros p q a Hp Ha. apply (C p q a Hp); [intros []|tauto|exact Ha].
  - destruct (Nat.ltb_spec c n) as [Hcn|Hcn].
    + destruct (I1 u (I2 u (or_introl eq_refl))) as [Hu Wu].
      destruct (scan_ok n G u TG Hu Wu (neighbors G u) (vis, st, c)) as (A & B & D & E & N).
      * intros x Hx. unfold neighbors in Hx. apply in_map_iff in Hx. destruct Hx as ([[p q] a] & Hq & Hf). apply filter_In in Hf. destruct Hf as [Hf He].
        cbn in Hq, He. apply Nat.eqb_eq in He. subst. exists a. exact Hf.
      * split; [exact I0|]. split; [exact I1|]. split; [intros x Hx; apply I2; right; exact Hx|exact I3].
      * intros p q a Hp Hq Hs Ha. apply (C p q a Hp); [intros [->|Hi]; [apply Hs; reflexivity|apply Hq; exact Hi]|tauto|exact Ha].
      * destruct (fold_left scan_step (neighbors G u) (vis, st, c)) as [[vis' st'] c'] eqn:Es. cbn [fst snd] in *.
        destruct N as (new & N1 & N2 & N3). apply IH.
        -- exact A.
        -- intros p q a Hp Hq _ Ha. destruct (Nat.eq_dec p u) as [->|Ne]; [|exact (B p q a Hp Hq Ne Ha)].
           apply D. unfold neighbors. apply in_map_iff. exists (u, q, a). split; [reflexivity|]. apply filter_In. split; [exact Ha|]. cbn. apply Nat.eqb_refl.
        -- cbn [fst snd]. assert (length st' = length new + length st)%nat by (rewrite N1, app_length; reflexivity). cbn [length] in F.
           assert (c' <= n)%nat. { destruct A as (_ & _ & _ & A). rewrite A. etransitivity; [apply filter_len_le|]. rewrite seq_length. lia. } lia.
        -- cbn [fst snd]. destruct A as (_ & _ & _ & A). rewrite A. etransitivity; [apply filter_len_le|]. rewrite seq_length. lia.
    + exists c, vis. split; [reflexivity|]. split; [exact I0|]. split; [exact I1|]. split; [exact I3|]. left. lia.
Qed.

Lemma filter_full (p : nat -> bool) l : length (filter p l) = length l -> forall x, In x l -> p x = true.
Proof.
  induction l as [|y l IH]; intros E x Hx; [destruct Hx|]. cbn [filter] in E. destruct (p y) eqn:Ep.
  - cbn [length] in E. destruct Hx as [->|Hx]; [exact Ep|apply IH; [lia|exact Hx]].
  - pose proof (filter_len_le p l). cbn [length] in E. lia.
Qed.
Lemma filter_all (p : nat -> bool) l : (forall x, In x l -> p x = true) -> filter p l = l.
Proof. induction l as [|y l IH]; intros E; cbn [filter]; [reflexivity|]. rewrite (E y (or_introl eq_refl)), IH; [reflexivity|]. intros x Hx. apply E. right; exact Hx. Qed.

(** precomputeDistances rejects exactly the target graphs that are not connected (target_graph.cpp:45-48), and the test terminates. *)
Theorem C53_connectivity_check n G :
  target n G -> (1 <= n)%nat ->
  exists r, inputGraphIsConnected n G = Some r /\ (r = true <-> is_connected n G).
Proof.
  intros TG Hn. unfold inputGraphIsConnected.
  assert (C1 : length (filter (upd (fun _ : nat => false) 0%nat true) (seq 0 n)) = 1%nat).
  { rewrite count_upd; [|lia|reflexivity]. f_equal. clear. induction (seq 0 n); cbn; auto. }
  destruct (dfs_ok n G TG (2 * n + 1) (upd (fun _ => false) 0%nat true, [0%nat], 1%nat)) as (c & vis & D & V0 & V1 & V2 & V3).
  - split; [apply upd_same|]. split; [|split].
    + intros x Hx. unfold upd in Hx. destruct (Nat.eqb_spec x 0) as [Ex0|]; [|discriminate]. rewrite Ex0. split; [lia|]. exists 0. constructor.
    + intros x [<-|[]]. apply upd_same.
    + symmetry. exact C1.
  - intros u v a Hu Hs. unfold upd in Hu. destruct (Nat.eqb_spec u 0) as [Eu0|]; [|discriminate]. exfalso. rewrite Eu0 in Hs. apply Hs. left. reflexivity.
  - cbn [fst snd length]. lia.
  - cbn. lia.
  - rewrite D. eexists. split; [reflexivity|]. rewrite Nat.eqb_eq. split.
    + intros -> u v Hu Hv.
      assert (A : forall x, (x < n)%nat -> exists w, walk G 0 x w).
      { intros x Hx. apply V1. apply (filter_full vis (seq 0 n)); [rewrite seq_length; congruence|apply in_seq; lia]. }
      destruct (A u Hu) as [a Wa]. destruct (A v Hv) as [b Wb]. exists (a + b). eapply walk_app; [eapply walk_rev; eassumption|exact Wb].
    + intros Hc. destruct V3 as [V3|V3]; [exact V3|]. rewrite V2, filter_all; [apply seq_length|]. intros x Hx. apply in_seq in Hx.
      destruct (Hc 0%nat x ltac:(lia) ltac:(lia)) as [w W]. clear - V0 V3 W. revert V0. induction W as [u|u y v a b I W IH]; intros V; [exact V|]. apply IH. exact (V3 _ _ _ V I).
Qed.

Example ex_C53 : inputGraphIsConnected 3 exG = Some true /\ inputGraphIsConnected 4 exG = Some false.
Proof. split; vm_compute; reflexivity. Qed.
