(** SpecLemmas.v - facts about the specification functions. *)
From Verif Require Import Base Spec.

Lemma in_block_true P b v : in_block P b v = true <-> P v = Some b.
Proof.
  unfold in_block. destruct (P v) as [c|]; [|split; congruence].
  rewrite Nat.eqb_eq. split; congruence.
Qed.
Lemma in_block_false P b v : in_block P b v = false <-> P v <> Some b.
Proof. rewrite <- in_block_true. destruct (in_block P b v); split; congruence. Qed.

Lemma in_block_move P u t b v :
  in_block (move P u t) b v = if Nat.eqb v u then Nat.eqb t b else in_block P b v.
Proof. unfold in_block, move, upd. destruct (Nat.eqb v u); reflexivity. Qed.

Lemma pin_count_sum H P e b : pin_count H P e b = sumZ (fun v => Z.b2z (in_block P b v)) (pins H e).
Proof. unfold pin_count. apply length_filter_sum. Qed.
Lemma block_weight_sum H P b :
  block_weight H P b = sumZ (fun v => if in_block P b v then nw H v else 0) (nodes H).
Proof. unfold block_weight. apply sumZ_filter. Qed.
Lemma pin_count_nonneg H P e b : 0 <= pin_count H P e b.
Proof. unfold pin_count. lia. Qed.

Lemma pin_count_pos_iff H P e b :
  0 < pin_count H P e b <-> exists v, In v (pins H e) /\ P v = Some b.
Proof.
  unfold pin_count. split.
  - intros Hp. destruct (filter (in_block P b) (pins H e)) as [|v r] eqn:E; simpl in Hp; [lia|].
    assert (Hv : In v (filter (in_block P b) (pins H e))) by (rewrite E; left; reflexivity).
    apply filter_In in Hv. exists v. split; [tauto|]. apply in_block_true. tauto.
  - intros [v [Hv Hb]].
    assert (Hf : In v (filter (in_block P b) (pins H e))).
    { apply filter_In. split; [exact Hv|]. apply in_block_true. exact Hb. }
    destruct (filter (in_block P b) (pins H e)); [destruct Hf|simpl; lia].
Qed.

Lemma in_blocks_of H P e b : In b (blocks_of H P e) <-> 0 < pin_count H P e b.
Proof.
  unfold blocks_of. rewrite nodup_In, in_flat_map, pin_count_pos_iff. split.
  - intros [v [Hv Hb]]. exists v. split; [exact Hv|].
    destruct (P v) as [c|]; [|destruct Hb]. destruct Hb as [->|[]]. reflexivity.
  - intros [v [Hv Hb]]. exists v. split; [exact Hv|]. rewrite Hb. left. reflexivity.
Qed.
Lemma blocks_of_nodup H P e : NoDup (blocks_of H P e).
Proof. apply NoDup_nodup. Qed.

(** All blocks used by the pins of [e] are below [k]. *)
Definition blocks_below (H : hypergraph) (P : partition) (k e : nat) : Prop :=
  forall v b, In v (pins H e) -> P v = Some b -> (b < k)%nat.

Lemma connectivity_count H P k e :
  blocks_below H P k e ->
  connectivity H P e = countb k (fun b => 0 <? pin_count H P e b).
Proof.
  intros Hk. unfold connectivity. rewrite countb_length. f_equal.
  apply NoDup_length_eq.
  - apply blocks_of_nodup.
  - apply NoDup_filter_, seq_NoDup.
  - intros b. rewrite in_blocks_of, filter_In, in_seq. rewrite Z.ltb_lt. split.
    + intros Hp. split; [|exact Hp]. apply pin_count_pos_iff in Hp. destruct Hp as [v [Hv Hb]].
      specialize (Hk v b Hv Hb). lia.
    + tauto.
Qed.

Lemma connectivity_nonneg H P e : 0 <= connectivity H P e.
Proof. unfold connectivity. lia. Qed.

Lemma connectivity_pos H P e v b : In v (pins H e) -> P v = Some b -> 1 <= connectivity H P e.
Proof.
  intros Hv Hb. unfold connectivity.
  assert (Hin : In b (blocks_of H P e)).
  { apply in_blocks_of, pin_count_pos_iff. exists v. tauto. }
  destruct (blocks_of H P e); [destruct Hin|simpl; lia].
Qed.

(** Effect of a move on the specification quantities. *)
Lemma pin_count_move H P u t e b :
  NoDup (pins H e) ->
  pin_count H (move P u t) e b =
  pin_count H P e b + (if mem u (pins H e) then Z.b2z (Nat.eqb t b) - Z.b2z (in_block P b u) else 0).
Proof.
  intros Hnd. rewrite !pin_count_sum.
  rewrite (sumZ_change1 _ (fun v => Z.b2z (in_block P b v)) _ u Hnd).
  - fold (mem u (pins H e)). rewrite in_block_move, Nat.eqb_refl. reflexivity.
  - intros x _ Hx. rewrite in_block_move. destruct (Nat.eqb_spec x u); [congruence|reflexivity].
Qed.

Lemma block_weight_move H P u t b :
  NoDup (nodes H) -> In u (nodes H) ->
  block_weight H (move P u t) b =
  block_weight H P b + nw H u * (Z.b2z (Nat.eqb t b) - Z.b2z (in_block P b u)).
Proof.
  intros Hnd Hu. rewrite !block_weight_sum.
  rewrite (sumZ_change1 _ (fun v => if in_block P b v then nw H v else 0) _ u Hnd).
  - fold (mem u (nodes H)). rewrite (proj2 (mem_In u (nodes H)) Hu).
    rewrite in_block_move, Nat.eqb_refl.
    destruct (Nat.eqb t b), (in_block P b u); simpl; lia.
  - intros x _ Hx. rewrite in_block_move. destruct (Nat.eqb_spec x u); [congruence|reflexivity].
Qed.

(** Extensionality of the specification in the partition, restricted to active nodes/pins. *)
Lemma pin_count_ext H P Q e b :
  (forall v, In v (pins H e) -> P v = Q v) -> pin_count H P e b = pin_count H Q e b.
Proof.
  intros HPQ. rewrite !pin_count_sum. apply sumZ_ext. intros v Hv. unfold in_block.
  rewrite (HPQ v Hv). reflexivity.
Qed.
Lemma block_weight_ext H P Q b :
  (forall v, In v (nodes H) -> P v = Q v) -> block_weight H P b = block_weight H Q b.
Proof.
  intros HPQ. rewrite !block_weight_sum. apply sumZ_ext. intros v Hv. unfold in_block.
  rewrite (HPQ v Hv). reflexivity.
Qed.
Lemma connectivity_ext H P Q e :
  (forall v, In v (pins H e) -> P v = Q v) -> connectivity H P e = connectivity H Q e.
Proof.
  intros HPQ. unfold connectivity. f_equal. apply NoDup_length_eq; try apply blocks_of_nodup.
  intros b. rewrite !in_blocks_of. rewrite (pin_count_ext H P Q e b HPQ). reflexivity.
Qed.

Lemma block_weight_nonneg H P b : (forall v, In v (nodes H) -> 0 <= nw H v) -> 0 <= block_weight H P b.
Proof.
  intros Hn. rewrite block_weight_sum. apply sumZ_nonneg. intros v Hv. specialize (Hn v Hv).
  destruct (in_block P b v); lia.
Qed.

(** Sum of all block weights is the total weight. *)
Lemma block_weights_total H P k :
  complete H P k -> sumZ (block_weight H P) (seq 0 k) = total_weight H.
Proof.
  intros Hc. unfold total_weight.
  rewrite (sumZ_ext _ (fun b => sumZ (fun v => if in_block P b v then nw H v else 0) (nodes H)))
    by (intros b _; apply block_weight_sum).
  rewrite sumZ_swap. apply sumZ_ext. intros v Hv. destruct (Hc v Hv) as [b [Hb Hbk]].
  rewrite (sumZ_ext _ (fun c => if Nat.eqb c b then nw H v else 0)).
  - rewrite sumZ_indicator by apply seq_NoDup.
    assert (Hm : mem b (seq 0 k) = true) by (apply mem_In, in_seq; lia). rewrite Hm. reflexivity.
  - intros c _. unfold in_block. rewrite Hb. rewrite Nat.eqb_sym. reflexivity.
Qed.

Lemma pin_count_total H P k e :
  (forall v, In v (pins H e) -> exists b, P v = Some b /\ (b < k)%nat) ->
  sumZ (pin_count H P e) (seq 0 k) = Z.of_nat (length (pins H e)).
Proof.
  intros Hc.
  rewrite (sumZ_ext _ (fun b => sumZ (fun v => Z.b2z (in_block P b v)) (pins H e)))
    by (intros b _; apply pin_count_sum).
  rewrite sumZ_swap, sumZ_length. apply sumZ_ext. intros v Hv. destruct (Hc v Hv) as [b [Hb Hbk]].
  rewrite (sumZ_ext _ (fun c => if Nat.eqb c b then 1 else 0)).
  - rewrite (sumZ_indicator _ _ (fun _ => 1)) by apply seq_NoDup.
    assert (Hm : mem b (seq 0 k) = true) by (apply mem_In, in_seq; lia). rewrite Hm. reflexivity.
  - intros c _. unfold in_block. rewrite Hb. rewrite Nat.eqb_sym. destruct (Nat.eqb c b); reflexivity.
Qed.
