(** The recursive bipartitioning tree (C87). *)
From Coq Require Import List Arith Lia Bool ZArith.
From Verif Require Import Base Deep.
Import ListNotations.
Local Open Scope nat_scope.

Ltac eqb :=
  repeat match goal with
  | H : (_ =? _) = true |- _ => apply Nat.eqb_eq in H
  | H : (_ =? _) = false |- _ => apply Nat.eqb_neq in H
  | H : (_ <? _) = true |- _ => apply Nat.ltb_lt in H
  | H : (_ <? _) = false |- _ => apply Nat.ltb_ge in H
  | H : (_ <=? _) = true |- _ => apply Nat.leb_le in H
  | H : (_ <=? _) = false |- _ => apply Nat.leb_gt in H
  end.

(** level i of the tree *)
Fixpoint lvl (k i : nat) : list nat := match i with 0 => [k] | S j => flat_map split (lvl k j) end.
Fixpoint lsum (l : list nat) : nat := match l with [] => 0 | x :: r => x + lsum r end.
Definition ceil2 (k i : nat) : nat := (k + (2 ^ i - 1)) / 2 ^ i.

Lemma lsum_app l r : lsum (l ++ r) = lsum l + lsum r.
Proof. induction l; cbn; lia. Qed.
Lemma halves k : k / 2 + k mod 2 + k / 2 = k.
Proof. pose proof (Nat.div_mod k 2 ltac:(lia)). lia. Qed.
Lemma halves_le k : k / 2 <= k / 2 + k mod 2 <= k / 2 + 1.
Proof. pose proof (Nat.mod_upper_bound k 2 ltac:(lia)). lia. Qed.
Lemma half_pos k : 1 < k -> 1 <= k / 2.
Proof. intros H. apply (Nat.div_le_lower_bound k 2 1); lia. Qed.
Lemma split_sum x : 1 <= x -> lsum (split x) = x.
Proof. intros H. unfold split. destruct (1 <? x) eqn:E; eqb; cbn [lsum]; [pose proof (halves x)|]; lia. Qed.
Lemma split_pos x y : In y (split x) -> 1 <= y.
Proof.
  unfold split. destruct (1 <? x) eqn:E; eqb; intros H; [pose proof (half_pos x E); destruct H as [<-|[<-|[]]]; lia|destruct H as [<-|[]]; lia].
Qed.
Lemma flat_split_sum l : (forall x, In x l -> 1 <= x) -> lsum (flat_map split l) = lsum l.
Proof.
  induction l as [|x l IH]; intros H; cbn; [reflexivity|]. rewrite lsum_app, IH by (intros; apply H; right; auto).
  rewrite split_sum; [reflexivity|apply H; left; auto].
Qed.
Lemma lvl_pos k i x : 1 <= k -> In x (lvl k i) -> 1 <= x.
Proof.
  intros Hk. destruct i; cbn; [intros [<-|[]]; auto|]. intros H. apply in_flat_map in H. destruct H as (y & _ & H). exact (split_pos _ _ H).
Qed.
Lemma lvl_sum k i : 1 <= k -> lsum (lvl k i) = k.
Proof. intros Hk. induction i; cbn; [lia|]. rewrite flat_split_sum; auto. intros x. now apply lvl_pos. Qed.
Lemma pow_pos i : 1 <= 2 ^ i.
Proof. induction i; cbn; lia. Qed.

(** all numbers of a level are k/2^i rounded up or down (or 1) *)
Lemma ceil2_spec k i : forall x, x <= ceil2 k i <-> 2 ^ i * x < k + 2 ^ i.
Proof.
  intros x. unfold ceil2. pose proof (pow_pos i) as P. split; intros H.
  - apply (Nat.mul_le_mono_l _ _ (2 ^ i)) in H. pose proof (Nat.mul_div_le (k + (2 ^ i - 1)) (2 ^ i) ltac:(lia)). lia.
  - apply Nat.div_le_lower_bound; lia.
Qed.
Lemma floor2_spec k i x : k / 2 ^ i <= x <-> k < 2 ^ i * S x.
Proof.
  pose proof (pow_pos i) as P. split; intros H.
  - pose proof (Nat.mul_succ_div_gt k (2 ^ i) ltac:(lia)).
    assert (2 ^ i * S (k / 2 ^ i) <= 2 ^ i * S x) by (apply Nat.mul_le_mono_l; lia). lia.
  - apply Nat.lt_succ_r. apply Nat.div_lt_upper_bound; lia.
Qed.
Lemma lvl_bounds k i x : 1 <= k -> In x (lvl k i) -> k / 2 ^ i <= x <= ceil2 k i.
Proof.
  intros Hk. revert x. induction i as [|i IH]; intros x; cbn [lvl].
  - intros [<-|[]]. split; [apply floor2_spec|apply ceil2_spec]; cbn; lia.
  - intros H. apply in_flat_map in H. destruct H as (y & Hy & H). pose proof (lvl_pos k i y Hk Hy) as P. destruct (IH y Hy) as (A & C).
    apply floor2_spec in A. apply ceil2_spec in C. pose proof (pow_pos i) as PP.
    unfold split in H. destruct (1 <? y) eqn:E; eqb.
    + pose proof (Nat.div_mod y 2 ltac:(lia)) as D. pose proof (Nat.mod_upper_bound y 2 ltac:(lia)) as U.
      set (q := y / 2) in *. set (m := y mod 2) in *.
      assert (X : x = q + m \/ x = q) by (destruct H as [<-|[<-|[]]]; auto). clear H.
      split; [apply floor2_spec|apply ceil2_spec]; cbn [Nat.pow]; destruct X as [->| ->]; assert (m = 0 \/ m = 1) as [M|M] by lia; rewrite M in *; nia.
    + destruct H as [<-|[]]. assert (y = 1) by lia. subst y. split; [apply floor2_spec|apply ceil2_spec]; cbn [Nat.pow]; nia.
Qed.

Lemma ones_sum l : (forall x, In x l -> x = 1) -> lsum l = length l.
Proof. induction l as [|x l IH]; intros H; cbn; auto. rewrite IH by (intros; apply H; right; auto). rewrite (H x) by (left; auto). reflexivity. Qed.
Lemma ones_repeat l : (forall x, In x l -> x = 1) -> l = repeat 1 (length l).
Proof. induction l as [|x l IH]; intros H; cbn; auto. rewrite (H x) by (left; auto). f_equal. apply IH. intros; apply H; right; auto. Qed.
Lemma lvl_ones k i x : 1 <= k -> k <= 2 ^ i -> In x (lvl k i) -> x = 1.
Proof.
  intros Hk L H. pose proof (lvl_pos k i x Hk H). destruct (lvl_bounds k i x Hk H) as (_ & B). apply ceil2_spec in B.
  pose proof (pow_pos i). destruct (Nat.eq_dec x 1); auto. assert (2 ^ i * 2 <= 2 ^ i * x) by (apply Nat.mul_le_mono_l; lia). lia.
Qed.
Lemma flat_two l : (forall x, In x l -> 2 <= x) -> length (flat_map split l) = 2 * length l.
Proof.
  induction l as [|x l IH]; intros H; cbn [flat_map length]; auto. rewrite app_length, IH by (intros; apply H; right; auto).
  unfold split. rewrite (proj2 (Nat.ltb_lt 1 x)) by (specialize (H x (or_introl eq_refl)); lia). cbn. lia.
Qed.
Lemma lvl_length k i : 1 <= k -> length (lvl k i) = min (2 ^ i) k.
Proof.
  intros Hk. destruct (Nat.le_gt_cases k (2 ^ i)) as [L|L].
  - rewrite <- ones_sum; [rewrite lvl_sum; lia|]. intros x. now apply lvl_ones.
  - rewrite Nat.min_l by lia. revert L. induction i as [|i IH]; intros L; cbn [lvl]; [reflexivity|]. cbn [Nat.pow] in *.
    pose proof (pow_pos i). rewrite flat_two; [rewrite IH; lia|]. intros x H1. destruct (lvl_bounds k i x Hk H1) as (A & _).
    apply floor2_spec in A. destruct (Nat.le_gt_cases 2 x); auto. assert (2 ^ i * S x <= 2 ^ i * 2) by (apply Nat.mul_le_mono_l; lia). lia.
Qed.
Lemma more_than_one l : length l < lsum l -> exists x, In x l /\ 1 < x.
Proof.
  induction l as [|x l IH]; cbn; [lia|]. intros H. destruct (Nat.le_gt_cases x 1) as [L|L]; [|exists x; auto].
  destruct IH as (y & Hy & Ly); [lia|]. exists y. auto.
Qed.
Lemma log_pow k : 2 <= k -> k <= 2 ^ Nat.log2_up k /\ 1 <= Nat.log2_up k <= k /\ forall i, i < Nat.log2_up k -> 2 ^ i < k.
Proof.
  intros H. destruct (Nat.log2_up_spec k ltac:(lia)) as (A & B). pose proof (Nat.log2_up_pos k ltac:(lia)).
  repeat split; auto; try lia.
  - pose proof (Nat.log2_up_le_lin k ltac:(lia)). lia.
  - intros i L. apply Nat.le_lt_trans with (2 ^ Nat.pred (Nat.log2_up k)); auto. apply Nat.pow_le_mono_r; lia.
Qed.

(** the levels of the tree *)
Lemma passes_lvl k : 2 <= k -> forall f i, Nat.log2_up k <= S i + f -> i < Nat.log2_up k ->
  passes f (lvl k i) = map (lvl k) (seq (S i) (Nat.log2_up k - i)).
Proof.
  intros Hk. destruct (log_pow k Hk) as (A & (B1 & B2) & D).
  assert (E : forall i, existsb (fun x => 1 <? x) (lvl k i) = (i <? Nat.log2_up k)).
  { intros i. destruct (Nat.ltb_spec i (Nat.log2_up k)) as [L|L].
    - apply existsb_exists. specialize (D i L). destruct (more_than_one (lvl k i)) as (x & Hx & Lx); [rewrite lvl_sum, lvl_length; lia|].
      exists x. split; auto. now apply Nat.ltb_lt.
    - apply not_true_is_false. intros X. apply existsb_exists in X. destruct X as (x & Hx & Lx). apply Nat.ltb_lt in Lx.
      assert (k <= 2 ^ i) by (transitivity (2 ^ Nat.log2_up k); [exact A|apply Nat.pow_le_mono_r; lia]).
      rewrite (lvl_ones k i x ltac:(lia) H Hx) in Lx. lia. }
  induction f as [|f IH]; intros i Lf Li; cbn [passes]; cbv zeta; change (flat_map split (lvl k i)) with (lvl k (S i)).
  - replace (Nat.log2_up k - i) with 1 by lia. reflexivity.
  - rewrite E. destruct (Nat.ltb_spec (S i) (Nat.log2_up k)) as [L|L].
    + rewrite IH by lia. replace (Nat.log2_up k - i) with (S (Nat.log2_up k - S i)) by lia. reflexivity.
    + replace (Nat.log2_up k - i) with 1 by lia. reflexivity.
Qed.
Lemma rb_levels_lvl k : 2 <= k -> rb_levels k = map (lvl k) (seq 0 (S (Nat.log2_up k))).
Proof.
  intros Hk. destruct (log_pow k Hk) as (A & (B1 & B2) & D). unfold rb_levels. change [k] with (lvl k 0) at 2. rewrite (passes_lvl k Hk) by lia.
  rewrite Nat.sub_0_r. reflexivity.
Qed.
Lemma levels_length k : 2 <= k -> length (rb_levels k) = S (Nat.log2_up k).
Proof. intros Hk. now rewrite rb_levels_lvl, map_length, seq_length. Qed.
Lemma levels_nth k i : 2 <= k -> i <= Nat.log2_up k -> nth i (rb_levels k) [] = lvl k i.
Proof.
  intros Hk L. rewrite rb_levels_lvl by auto. rewrite (nth_indep _ [] (lvl k 0)) by (rewrite map_length, seq_length; lia).
  rewrite map_nth, seq_nth by lia. reflexivity.
Qed.

(** ** Theorems: the tree *)
(** Every level of the tree distributes all k blocks (at least one per entry),
    as evenly as possible; the number of blocks doubles from level to level
    until it is k; on the last level every block is final. *)
Theorem C87_tree k : 2 <= k ->
  length (rb_levels k) = S (Nat.log2_up k) /\
  (forall i, i <= Nat.log2_up k -> let l := nth i (rb_levels k) [] in
     length l = min (2 ^ i) k /\ lsum l = k /\ forall x, In x l -> 1 <= x /\ k / 2 ^ i <= x <= ceil2 k i) /\
  nth 0 (rb_levels k) [] = [k] /\ last (rb_levels k) [] = repeat 1 k.
Proof.
  intros Hk. pose proof (log_pow k Hk) as (A & (B1 & B2) & D). split; [now apply levels_length|]. split; [|split; [reflexivity|]].
  - intros i L. cbv zeta. rewrite levels_nth by auto. split; [|split].
    + apply lvl_length. lia.
    + apply lvl_sum. lia.
    + intros x Hx. split; [apply (lvl_pos k i); auto; lia|apply lvl_bounds; auto; lia].
  - rewrite rb_levels_lvl by auto. rewrite seq_S, map_app. cbn [map Nat.add]. rewrite last_last.
    rewrite (ones_repeat (lvl k (Nat.log2_up k))); [|intros x; apply lvl_ones; lia]. rewrite lvl_length by lia. f_equal. lia.
Qed.

Lemma level_of_seq k n : forall a, (forall i, a <= i < a + n -> 2 ^ i < k \/ i = a + n - 1) -> 1 <= k -> forall i, a <= i < a + n ->
  forall j, (j = min (2 ^ i) k) -> level_of_from a (map (lvl k) (seq a n)) j = Some i.
Proof.
  induction n as [|n IH]; intros a H Hk i L j E; [lia|]. cbn [seq map level_of_from].
  destruct (Nat.eq_dec i a) as [->|N].
  - assert (F : level_of_from (S a) (map (lvl k) (seq (S a) n)) j = None).
    { assert (X : forall m c, a < c -> 2 ^ a < k -> (forall i, c <= i < c + m -> 2 ^ i < k \/ True) -> level_of_from c (map (lvl k) (seq c m)) j = None).
      { induction m as [|m IHm]; intros c Lc P _; [reflexivity|]. cbn [seq map level_of_from]. rewrite IHm by (auto; lia).
        rewrite lvl_length by auto. assert (2 ^ a < 2 ^ c) by (apply Nat.pow_lt_mono_r; lia).
        rewrite (proj2 (Nat.eqb_neq _ _)) by lia. reflexivity. }
      destruct n as [|n]; [reflexivity|]. apply X; auto. destruct (H a) as [P|P]; lia. }
    rewrite F, lvl_length by auto. rewrite <- E, Nat.eqb_refl. reflexivity.
  - rewrite (IH (S a)) with (i := i); auto; try lia. intros i' L'. destruct (H i'); [lia|auto|]. right. lia.
Qed.
Lemma level_of_ok k i : 2 <= k -> i <= Nat.log2_up k -> level_of (rb_levels k) (min (2 ^ i) k) = Some i.
Proof.
  intros Hk L. destruct (log_pow k Hk) as (A & (B1 & B2) & D). rewrite rb_levels_lvl by auto. unfold level_of.
  apply level_of_seq; try lia. intros i' L'. destruct (Nat.eq_dec i' (Nat.log2_up k)) as [->|N]; [right; lia|left; apply D; lia].
Qed.
(** the levels are found by their number of blocks *)
Theorem C87_level_of_blocks k i : 2 <= k -> i < length (rb_levels k) ->
  level_of (rb_levels k) (length (nth i (rb_levels k) [])) = Some i.
Proof.
  intros Hk L. rewrite levels_length in L by auto. rewrite levels_nth, lvl_length by lia. apply level_of_ok; auto. lia.
Qed.

(** the numbers of blocks that occur *)
Definition block_counts (k : nat) : list nat := map (@length nat) (rb_levels k).
Lemma block_counts_in k j : 2 <= k -> In j (block_counts k) <-> exists i, i <= Nat.log2_up k /\ j = min (2 ^ i) k.
Proof.
  intros Hk. unfold block_counts. rewrite rb_levels_lvl, map_map by auto. rewrite in_map_iff. split.
  - intros (i & E & H). apply in_seq in H. exists i. rewrite lvl_length in E by lia. split; lia.
  - intros (i & L & E). exists i. rewrite lvl_length by lia. split; [lia|apply in_seq; lia].
Qed.

(** The next number of blocks is twice the current one, at most k. *)
Theorem C87_next_blocks k j : 2 <= k -> In j (block_counts k) ->
  nextK (rb_levels k) j = (if j =? k then Invalid else Next (min (2 * j) k)) /\ (j <> k -> In (min (2 * j) k) (block_counts k)).
Proof.
  intros Hk Hj. apply block_counts_in in Hj; auto. destruct Hj as (i & L & ->). destruct (log_pow k Hk) as (A & (B1 & B2) & D).
  unfold nextK. change (nth 0 (nth 0 (rb_levels k) []) 0) with k.
  destruct (Nat.eq_dec (min (2 ^ i) k) k) as [E|E].
  - rewrite E, Nat.ltb_irrefl, Nat.eqb_refl. split; [reflexivity|congruence].
  - rewrite (proj2 (Nat.ltb_lt _ _)) by lia. rewrite (proj2 (Nat.eqb_neq _ _) E). rewrite level_of_ok by auto.
    assert (Li : i < Nat.log2_up k). { destruct (Nat.eq_dec i (Nat.log2_up k)) as [->|]; lia. }
    specialize (D i Li). rewrite levels_length by auto. rewrite (proj2 (Nat.ltb_lt _ _)) by lia. rewrite levels_nth, lvl_length by lia.
    assert (X : min (2 ^ (i + 1)) k = min (2 * min (2 ^ i) k) k) by (rewrite Nat.add_1_r; cbn [Nat.pow]; lia).
    rewrite X. split; [reflexivity|]. intros _. apply block_counts_in; auto. exists (i + 1). split; [lia|auto].
Qed.

(** *** get_maximum_number_of_blocks *)
Lemma get_max_from_spec C n l : match get_max_from C n l with
  | Some k => exists l1 x l2, l = l1 ++ x :: l2 /\ k = length x /\ k * C <= n /\ forall y, In y l1 -> n < length y * C
  | None => forall y, In y l -> n < length y * C end.
Proof.
  induction l as [|x l IH]; cbn; [intros y []|]. destruct (length x * C <=? n) eqn:E; eqb.
  - exists [], x, l. repeat split; auto. intros y [].
  - destruct (get_max_from C n l) as [k|].
    + destruct IH as (l1 & z & l2 & -> & K1 & K2 & K3). exists (x :: l1), z, l2. repeat split; auto. intros y [<-|Hy]; auto.
    + intros y [<-|Hy]; auto.
Qed.
(** With at least C nodes it is the largest possible number j of blocks with at
    least j*C nodes, with fewer it is k. *)
Theorem C87_max_blocks k C n : 2 <= k ->
  (C <= n -> In (get_max (rb_levels k) C n) (block_counts k) /\ get_max (rb_levels k) C n * C <= n /\
     forall j, In j (block_counts k) -> j * C <= n -> 0 < C -> j <= get_max (rb_levels k) C n) /\
  (n < C -> get_max (rb_levels k) C n = k).
Proof.
  intros Hk. pose proof (get_max_from_spec C n (rev (rb_levels k))) as H. unfold get_max. split; intros L.
  - destruct (get_max_from C n (rev (rb_levels k))) as [j|].
    + destruct H as (l1 & x & l2 & E & -> & K1 & K2). split; [|split; auto].
      * unfold block_counts. apply in_map. apply in_rev. rewrite E. apply in_or_app. right. left. auto.
      * intros j Hj Lj PC. destruct (Nat.le_gt_cases j (length x)) as [|G]; auto. exfalso.
        apply (f_equal (@rev _)) in E. rewrite rev_involutive, rev_app_distr in E. cbn in E. rewrite <- app_assoc in E. cbn in E.
        unfold block_counts in Hj. apply in_map_iff in Hj. destruct Hj as (y & <- & Hy). rewrite E in Hy.
        apply in_app_or in Hy. destruct Hy as [Hy|[<-|Hy]]; [|lia|apply in_rev in Hy; specialize (K2 y Hy); lia].
        apply in_split in Hy. destruct Hy as (a & b & Hy). rewrite Hy in E.
        assert (X1 : nth (length a) (rb_levels k) [] = y). { rewrite E, <- !app_assoc. rewrite app_nth2, Nat.sub_diag by lia. reflexivity. }
        assert (X2 : nth (length (a ++ y :: b)) (rb_levels k) [] = x). { rewrite E, app_nth2, Nat.sub_diag by lia. reflexivity. }
        assert (LL : length (rb_levels k) = length (a ++ y :: b) + S (length (rev l1))) by (rewrite E, app_length; cbn; reflexivity).
        rewrite levels_length in LL by auto. rewrite app_length in *. cbn [length] in *.
        rewrite levels_nth in X1, X2 by lia. rewrite <- X1, <- X2, !lvl_length in G by lia.
        assert (2 ^ length a <= 2 ^ (length a + S (length b))) by (apply Nat.pow_le_mono_r; lia). lia.
    + exfalso. specialize (H [k]). enough (n < 1 * C) by lia. apply H. apply (proj1 (in_rev (rb_levels k) [k])). left. reflexivity.
  - destruct (get_max_from C n (rev (rb_levels k))) as [j|].
    + destruct H as (l1 & x & l2 & E & -> & K1 & K2). exfalso. destruct x as [|z x]; [|cbn in K1; lia].
      assert (X : In [] (rb_levels k)) by (apply in_rev; rewrite E; apply in_or_app; right; left; auto).
      rewrite rb_levels_lvl in X by auto. apply in_map_iff in X. destruct X as (i & X & _). apply (f_equal (@length _)) in X.
      rewrite lvl_length in X by lia. cbn in X. pose proof (pow_pos i). lia.
    + destruct (C87_tree k Hk) as (_ & _ & _ & ->). apply repeat_length.
Qed.

(** ** Theorem: the children of a block *)
Lemma split_length d : length (split d) = if 1 <? d then 2 else 1.
Proof. unfold split. destruct (1 <? d); reflexivity. Qed.
Lemma block_ranges_nth : forall l b o, b <= length l -> nth b (block_ranges o l) 0 = o + length (flat_map split (firstn b l)).
Proof.
  induction l as [|d l IH]; intros b o L; destruct b as [|b]; cbn [length] in L; cbn [block_ranges nth firstn flat_map length]; try lia.
  rewrite IH by lia. rewrite app_length, split_length. lia.
Qed.
Lemma targets_nth : forall l b s, b <= length l -> nth b (targets s l) 0 = s + lsum (firstn b l).
Proof.
  induction l as [|d l IH]; intros b s L; destruct b as [|b]; cbn [length] in L; cbn [targets nth firstn lsum]; try lia.
  rewrite IH by lia. lia.
Qed.
Lemma firstn_plus {A} a b (l : list A) : firstn (a + b) l = firstn a l ++ firstn b (skipn a l).
Proof. revert l; induction a as [|a IH]; intros l; [reflexivity|]. destruct l as [|x l]; cbn; [now rewrite firstn_nil|]. f_equal. apply IH. Qed.
Lemma skipn_plus {A} a b (l : list A) : skipn (a + b) l = skipn b (skipn a l).
Proof. revert l; induction a as [|a IH]; intros l; [reflexivity|]. destruct l as [|x l]; cbn; [now rewrite skipn_nil|]. apply IH. Qed.
Lemma wsum_plus W a d1 d2 : (wsum W a (d1 + d2) = wsum W a d1 + wsum W (a + d1) d2)%Z.
Proof.
  unfold wsum. rewrite firstn_plus, <- skipn_plus. induction (firstn d1 (skipn a W)) as [|x l IH]; cbn [fold_right app]; [lia|]. rewrite IH. lia.
Qed.
Lemma level_weights_nth W : forall l b s, b < length l -> nth b (level_weights W s l) 0%Z = wsum W (s + lsum (firstn b l)) (nth b l 0).
Proof.
  induction l as [|d l IH]; intros b s L; cbn [length] in L; [lia|]. destruct b as [|b]; cbn [level_weights nth firstn lsum]; [now rewrite Nat.add_0_r|].
  rewrite IH by lia. f_equal. lia.
Qed.
Lemma firstn_at {A} (l1 l2 : list A) : firstn (length l1) (l1 ++ l2) = l1.
Proof. now rewrite firstn_app, Nat.sub_diag, firstn_O, app_nil_r, firstn_all. Qed.
Lemma nth_at {A} (l1 l2 : list A) i d : nth (length l1 + i) (l1 ++ l2) d = nth i l2 d.
Proof. rewrite app_nth2_plus. reflexivity. Qed.

(** What extending every block of a level does: block b becomes the blocks o and
    o + 1 of the next level (or just o if it is final), o counting the new blocks
    of the blocks before b; they inherit its final blocks and its weight limit. *)
Theorem C87_children W k i b : 2 <= k -> S i < length (rb_levels k) ->
  let l := nth i (rb_levels k) [] in let l' := nth (S i) (rb_levels k) [] in
  let o := nth b (block_ranges 0 l) 0 in let d := nth b l 0 in
  let first := nth b (targets 0 l) 0 in let weight := nth b (level_weights W 0 l) 0%Z in
  nth 0 (block_ranges 0 l) 0 = 0 /\ nth (length l) (block_ranges 0 l) 0 = length l' /\
  (b < length l -> 1 < d ->
     nth (S b) (block_ranges 0 l) 0 = o + 2 /\ o + 1 < length l' /\
     nth o l' 0 + nth (o + 1) l' 0 = d /\ nth (o + 1) l' 0 <= nth o l' 0 <= nth (o + 1) l' 0 + 1 /\
     nth o (targets 0 l') 0 = first /\ nth (o + 1) (targets 0 l') 0 = first + nth o l' 0 /\ nth (S (o + 1)) (targets 0 l') 0 = first + d /\
     (nth o (level_weights W 0 l') 0 + nth (o + 1) (level_weights W 0 l') 0 = weight)%Z) /\
  (b < length l -> d <= 1 ->
     nth (S b) (block_ranges 0 l) 0 = o + 1 /\ o < length l' /\ d = 1 /\ nth o l' 0 = 1 /\
     nth o (targets 0 l') 0 = first /\ nth (S o) (targets 0 l') 0 = first + 1 /\ nth o (level_weights W 0 l') 0%Z = weight).
Proof.
  intros Hk Li l l' o d first weight. rewrite levels_length in Li by auto.
  assert (El : l = lvl k i) by (apply levels_nth; auto; lia). assert (El' : l' = flat_map split l) by (rewrite El; apply (levels_nth k (S i)); auto; lia).
  assert (P : forall x, In x l -> 1 <= x) by (intros x; rewrite El; apply lvl_pos; lia).
  split; [now destruct l|]. split; [rewrite block_ranges_nth by lia; now rewrite firstn_all, El'|].
  assert (D : b < length l -> exists l1 l2, l = l1 ++ d :: l2 /\ length l1 = b).
  { intros L. exists (firstn b l), (skipn (S b) l). split; [|rewrite firstn_length; lia]. rewrite <- (firstn_skipn b l) at 1. f_equal.
    unfold d. clear - L. revert b L. induction l as [|x l IH]; intros b L; cbn in L; [lia|]. destruct b; cbn; [reflexivity|]. apply IH. lia. }
  clearbody l l' d. split; intros L Ld; destruct (D L) as (l1 & l2 & E & Lb).
  - assert (Ed : split d = [d / 2 + d mod 2; d / 2]) by (unfold split; now rewrite (proj2 (Nat.ltb_lt 1 d) Ld)).
    assert (X : l' = flat_map split l1 ++ [d / 2 + d mod 2; d / 2] ++ flat_map split l2) by (rewrite El', E, flat_map_app; cbn [flat_map]; now rewrite Ed).
    assert (F1 : firstn b l = l1) by (rewrite E, <- Lb; apply firstn_at).
    assert (F2 : firstn (S b) l = l1 ++ [d]).
    { rewrite E. replace (S b) with (length (l1 ++ [d])) by (rewrite app_length; cbn; lia). change (d :: l2) with ([d] ++ l2). rewrite app_assoc. apply firstn_at. }
    assert (O : o = length (flat_map split l1)) by (unfold o; rewrite block_ranges_nth, F1 by lia; reflexivity).
    assert (Q : forall x, In x l1 -> 1 <= x) by (intros x Hx; apply P; rewrite E; apply in_or_app; auto).
    assert (Nb : nth b l 0 = d) by (rewrite E, <- Lb; rewrite <- (Nat.add_0_r (length l1)), nth_at; reflexivity).
    assert (T : first = lsum l1) by (unfold first; rewrite targets_nth, F1 by lia; reflexivity).
    assert (Lo : o + 1 < length l') by (rewrite X, O, !app_length; cbn; lia).
    assert (N0 : nth o l' 0 = d / 2 + d mod 2) by (rewrite X, O, <- (Nat.add_0_r (length _)), nth_at; reflexivity).
    assert (N1 : nth (o + 1) l' 0 = d / 2) by (rewrite X, O, nth_at; reflexivity).
    assert (G0 : firstn o l' = flat_map split l1) by (rewrite X, O; apply firstn_at).
    assert (G1 : firstn (o + 1) l' = flat_map split l1 ++ [d / 2 + d mod 2]).
    { rewrite X. replace (o + 1) with (length (flat_map split l1 ++ [d / 2 + d mod 2])) by (rewrite app_length; cbn; lia).
      change ([d / 2 + d mod 2; d / 2] ++ flat_map split l2) with ([d / 2 + d mod 2] ++ (d / 2 :: flat_map split l2)). rewrite app_assoc. apply firstn_at. }
    assert (G2 : firstn (S (o + 1)) l' = flat_map split l1 ++ [d / 2 + d mod 2; d / 2]).
    { rewrite X. replace (S (o + 1)) with (length (flat_map split l1 ++ [d / 2 + d mod 2; d / 2])) by (rewrite app_length; cbn; lia).
      rewrite app_assoc. apply firstn_at. }
    pose proof (halves d) as HV. pose proof (halves_le d).
    split; [rewrite block_ranges_nth, F2 by lia; rewrite flat_map_app, app_length, <- O; cbn [flat_map]; rewrite app_nil_r, Ed; reflexivity|].
    split; [exact Lo|]. split; [rewrite N0, N1; lia|]. split; [rewrite N0, N1; lia|].
    rewrite !targets_nth, G0, G1, G2, !lsum_app, !flat_split_sum, N0, T by (auto; lia). cbn [lsum].
    repeat split; try lia. unfold weight. rewrite !level_weights_nth, G0, G1, F1, Nb, N0, N1, lsum_app, !flat_split_sum by (auto; lia). cbn [lsum].
    replace (wsum W (0 + lsum l1) d) with (wsum W (0 + lsum l1) (d / 2 + d mod 2 + d / 2)) by (f_equal; exact HV). rewrite (wsum_plus W (0 + lsum l1) (d / 2 + d mod 2) (d / 2)). f_equal; f_equal; lia.
  - assert (Ed1 : d = 1) by (assert (1 <= d) by (apply P; rewrite E; apply in_or_app; right; left; auto); lia).
    assert (Ed : split d = [1]) by (rewrite Ed1; reflexivity).
    assert (X : l' = flat_map split l1 ++ [1] ++ flat_map split l2) by (rewrite El', E, flat_map_app; cbn [flat_map]; now rewrite Ed).
    assert (F1 : firstn b l = l1) by (rewrite E, <- Lb; apply firstn_at).
    assert (F2 : firstn (S b) l = l1 ++ [d]).
    { rewrite E. replace (S b) with (length (l1 ++ [d])) by (rewrite app_length; cbn; lia). change (d :: l2) with ([d] ++ l2). rewrite app_assoc. apply firstn_at. }
    assert (O : o = length (flat_map split l1)) by (unfold o; rewrite block_ranges_nth, F1 by lia; reflexivity).
    assert (Q : forall x, In x l1 -> 1 <= x) by (intros x Hx; apply P; rewrite E; apply in_or_app; auto).
    assert (Nb : nth b l 0 = d) by (rewrite E, <- Lb; rewrite <- (Nat.add_0_r (length l1)), nth_at; reflexivity).
    assert (T : first = lsum l1) by (unfold first; rewrite targets_nth, F1 by lia; reflexivity).
    assert (Lo : o < length l') by (rewrite X, O, !app_length; cbn; lia).
    assert (N0 : nth o l' 0 = 1) by (rewrite X, O, <- (Nat.add_0_r (length _)), nth_at; reflexivity).
    assert (G0 : firstn o l' = flat_map split l1) by (rewrite X, O; apply firstn_at).
    assert (G1 : firstn (S o) l' = flat_map split l1 ++ [1]).
    { rewrite X. replace (S o) with (length (flat_map split l1 ++ [1])) by (rewrite app_length; cbn; lia). rewrite app_assoc. apply firstn_at. }
    split; [rewrite block_ranges_nth, F2 by lia; rewrite flat_map_app, app_length, <- O; cbn [flat_map]; rewrite app_nil_r, Ed; reflexivity|].
    split; [exact Lo|]. split; [exact Ed1|]. split; [exact N0|].
    rewrite !targets_nth, G0, G1, !lsum_app, !flat_split_sum, T by (auto; lia). cbn [lsum].
    repeat split; try lia. unfold weight. rewrite !level_weights_nth, G0, F1, Nb, N0, !flat_split_sum by (auto; lia). now rewrite Ed1.
Qed.
