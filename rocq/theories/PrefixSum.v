(** PrefixSum.v - parallel prefix sums (mt-kahypar/parallel/parallel_prefix_sum.h:39-173) under every execution
    tbb::parallel_scan may choose.

    Simplification: the value type is abstract with a commutative, associative operation (all call sites use
    std::plus on integers); integer overflow is not modelled.  What tbb::parallel_scan may do is written out as the
    step relation [event]/[step] below: it is the documented contract of the scan body. *)
From Verif Require Import Base.

(** Specification: the i-th inclusive prefix of [data] under [f], starting from [e]. *)
Definition prefix {T} (f : T -> T -> T) (e : T) (data : nat -> T) (n : nat) : T :=
  fold_left (fun a i => f a (data i)) (seq 0 n) e.

Section Body.
Context {T : Type}.
Variables (f : T -> T -> T) (e : T).
(** [alias]: input and output range are the same memory (in-place use; TBBPrefixSum is always in place). *)
Variable alias : bool.

(** Memory of the two ranges. *)
Record pmem := mkPM { p_in : nat -> T; p_out : nat -> T }.
Definition wr (m : pmem) (i : nat) (v : T) : pmem :=
  mkPM (if alias then upd (p_in m) i v else p_in m) (upd (p_out m) i v).

(** operator()(range, pre_scan_tag), :62-66; TBBPrefixSum::operator() with a pre-scan tag, :146-156 *)
Definition ps_pre (m : pmem) (sum : T) (lo hi : nat) : T :=
  fold_left (fun s i => f s (p_in m i)) (seq lo (hi - lo)) sum.
(** operator()(range, final_scan_tag), :68-73; TBBPrefixSum::operator() with the final-scan tag, :146-156 *)
Definition ps_final (m : pmem) (sum : T) (lo hi : nat) : pmem * T :=
  fold_left (fun st i => let s := f (snd st) (p_in (fst st) i) in (wr (fst st) i s, s)) (seq lo (hi - lo)) (m, sum).
(** reverse_join, :75-77 (TBBPrefixSum :158-160): the sum of the LEFT neighbour is the second operand. *)
Definition ps_join (sum lhs : T) : T := f sum lhs.

(** sequential_prefix_sum, :85-93 *)
Definition ps_sequential (m : pmem) (n : nat) : pmem * T := ps_final m e 0 n.

(** A body object: the interval it has accumulated and its [sum] field.  [b_lo], [b_hi] are ghost fields. *)
Record bdy := mkBdy { b_lo : nat; b_hi : nat; b_sum : T }.
Record pst := mkPst { s_mem : pmem; s_fin : list nat; s_bodies : list bdy }.

(** The moves of the TBB scheduler: bodies may be split off at any position, pre-scan a range not finished yet,
    be joined with a left neighbour, or, if they cover everything from 0, perform the final scan of the range that
    follows; a body may be dropped or overwritten by assign (:79-81), which is a copy. *)
Inductive step : pst -> pst -> Prop :=
| st_split s lo : step s (mkPst (s_mem s) (s_fin s) (mkBdy lo lo e :: s_bodies s))
| st_pre s b hi : In b (s_bodies s) -> (b_hi b <= hi)%nat ->
    (forall i, (b_hi b <= i < hi)%nat -> ~ In i (s_fin s)) ->
    step s (mkPst (s_mem s) (s_fin s) (mkBdy (b_lo b) hi (ps_pre (s_mem s) (b_sum b) (b_hi b) hi) :: s_bodies s))
| st_final s b hi : In b (s_bodies s) -> b_lo b = 0%nat -> (b_hi b <= hi)%nat ->
    (forall i, (b_hi b <= i < hi)%nat -> ~ In i (s_fin s)) ->
    step s (mkPst (fst (ps_final (s_mem s) (b_sum b) (b_hi b) hi)) (seq (b_hi b) (hi - b_hi b) ++ s_fin s)
                  (mkBdy 0 hi (snd (ps_final (s_mem s) (b_sum b) (b_hi b) hi)) :: s_bodies s))
| st_join s b l : In b (s_bodies s) -> In l (s_bodies s) -> b_hi l = b_lo b ->
    step s (mkPst (s_mem s) (s_fin s) (mkBdy (b_lo l) (b_hi b) (ps_join (b_sum b) (b_sum l)) :: s_bodies s))
| st_drop s bs : incl bs (s_bodies s) -> step s (mkPst (s_mem s) (s_fin s) bs).

Inductive steps : pst -> pst -> Prop :=
| steps_refl s : steps s s
| steps_step s1 s2 s3 : steps s1 s2 -> step s2 s3 -> steps s1 s3.

(** parallel_scan starts with the body constructed from the neutral element, :100-101. *)
Definition ps_init (m : pmem) : pst := mkPst m [] [mkBdy 0 0 e].
(** parallel_scan is over: every index was final-scanned. *)
Definition ps_done (n : nat) (s : pst) : Prop := forall i, (i < n)%nat -> In i (s_fin s).

Hypothesis f_assoc : forall a b c, f a (f b c) = f (f a b) c.
Hypothesis f_comm : forall a b, f a b = f b a.
Hypothesis f_neutral : forall a, f e a = a.

Definition rsum (d : nat -> T) (lo hi : nat) : T := fold_left (fun s i => f s (d i)) (seq lo (hi - lo)) e.

Lemma fold_shift (d : nat -> T) l a : fold_left (fun s i => f s (d i)) l a = f a (fold_left (fun s i => f s (d i)) l e).
Proof.
  revert a. induction l as [|x r IH]; intros a; simpl.
  - rewrite f_comm, f_neutral. reflexivity.
  - rewrite IH. rewrite (IH (f e (d x))). rewrite f_neutral, f_assoc. reflexivity.
Qed.
Lemma fold_ext (d1 d2 : nat -> T) l a : (forall i, In i l -> d1 i = d2 i) ->
  fold_left (fun s i => f s (d1 i)) l a = fold_left (fun s i => f s (d2 i)) l a.
Proof.
  revert a. induction l as [|x r IH]; intros a H; simpl; [reflexivity|].
  rewrite (H x) by (left; reflexivity). apply IH. intros i Hi. apply H. right. exact Hi.
Qed.
Lemma rsum_split d lo mid hi : (lo <= mid)%nat -> (mid <= hi)%nat -> rsum d lo hi = f (rsum d lo mid) (rsum d mid hi).
Proof.
  intros H1 H2. unfold rsum. replace (hi - lo)%nat with ((mid - lo) + (hi - mid))%nat by lia.
  rewrite seq_app, fold_left_app. rewrite fold_shift. f_equal.
  replace (lo + (mid - lo))%nat with mid by lia. reflexivity.
Qed.
Lemma rsum_prefix d n : rsum d 0 n = prefix f e d n.
Proof. unfold rsum, prefix. rewrite Nat.sub_0_r. reflexivity. Qed.

(** One final scan of a range, from the correct start value, on untouched input. *)
Lemma final_scan_correct d m lo hi :
  (lo <= hi)%nat -> (forall i, (lo <= i < hi)%nat -> p_in m i = d i) ->
  snd (ps_final m (rsum d 0 lo) lo hi) = rsum d 0 hi /\
  (forall i, (lo <= i < hi)%nat -> p_out (fst (ps_final m (rsum d 0 lo) lo hi)) i = rsum d 0 (S i)) /\
  (forall i, ~ (lo <= i < hi)%nat -> p_out (fst (ps_final m (rsum d 0 lo) lo hi)) i = p_out m i) /\
  (forall i, ~ (lo <= i < hi)%nat -> p_in (fst (ps_final m (rsum d 0 lo) lo hi)) i = p_in m i).
Proof.
  intros Hle. unfold ps_final. remember (hi - lo)%nat as n eqn:En. revert hi Hle En.
  induction n as [|n IH]; intros hi Hle En Hin.
  - simpl. assert (hi = lo) by lia. subst hi. repeat split; intros; try lia; reflexivity.
  - assert (Hh : hi = S (hi - 1)) by lia.
    specialize (IH (hi - 1)%nat ltac:(lia) ltac:(lia)).
    destruct IH as [I1 [I2 [I3 I4]]]. { intros i Hi. apply Hin. lia. }
    rewrite (seq_S n lo), fold_left_app. simpl.
    set (st := fold_left _ (seq lo n) (m, rsum d 0 lo)) in *.
    replace (lo + n)%nat with (hi - 1)%nat by lia.
    assert (Hs : f (snd st) (p_in (fst st) (hi - 1)%nat) = rsum d 0 hi).
    { rewrite I1, I4 by lia. rewrite Hin by lia. rewrite (rsum_split d 0 (hi - 1) hi) by lia. f_equal.
      unfold rsum. replace (hi - (hi - 1))%nat with 1%nat by lia. simpl. rewrite f_neutral. reflexivity. }
    repeat split.
    + exact Hs.
    + intros i Hi. unfold wr; simpl. destruct (Nat.eq_dec i (hi - 1)) as [->|Hne].
      * rewrite upd_same. rewrite Hs. f_equal. lia.
      * rewrite upd_other by exact Hne. apply I2. lia.
    + intros i Hi. unfold wr; simpl. rewrite upd_other by lia. apply I3. lia.
    + intros i Hi. unfold wr; simpl. destruct alias; [rewrite upd_other by lia|]; apply I4; lia.
Qed.

Definition pinv (d : nat -> T) (s : pst) : Prop :=
  (forall i, ~ In i (s_fin s) -> p_in (s_mem s) i = d i) /\
  (forall i, In i (s_fin s) -> p_out (s_mem s) i = rsum d 0 (S i)) /\
  (forall b, In b (s_bodies s) -> (b_lo b <= b_hi b)%nat /\ b_sum b = rsum d (b_lo b) (b_hi b)).

Lemma step_inv d s s' : step s s' -> pinv d s -> pinv d s'.
Proof.
  intros Hst [I1 [I2 I3]]. destruct Hst as [s lo|s b hi Hb Hle Hf|s b hi Hb H0 Hle Hf|s b l Hb Hl Hadj|s bs Hincl];
    unfold pinv; simpl.
  - split; [exact I1|split; [exact I2|]]. intros b [<-|Hb]; [|apply I3; exact Hb].
    simpl. split; [lia|]. unfold rsum. rewrite Nat.sub_diag. reflexivity.
  - split; [exact I1|split; [exact I2|]]. intros b' [<-|Hb']; [|apply I3; exact Hb'].
    simpl. destruct (I3 b Hb) as [Hl Hs]. split; [lia|].
    unfold ps_pre. rewrite (fold_ext (p_in (s_mem s)) d).
    + rewrite Hs. rewrite (rsum_split d (b_lo b) (b_hi b) hi) by lia. rewrite fold_shift. reflexivity.
    + intros i Hi. apply in_seq in Hi. apply I1. apply Hf. lia.
  - destruct (I3 b Hb) as [Hl Hs]. rewrite H0 in Hs.
    destruct (final_scan_correct d (s_mem s) (b_hi b) hi Hle) as [F1 [F2 [F3 F4]]].
    { intros i Hi. apply I1. apply Hf. lia. }
    rewrite Hs. split; [|split].
    + intros i Hi. rewrite F4.
      * apply I1. intros Hc. apply Hi. apply in_or_app. right. exact Hc.
      * intros Hc. apply Hi. apply in_or_app. left. apply in_seq. lia.
    + intros i Hi. apply in_app_or in Hi. destruct Hi as [Hi|Hi].
      * apply in_seq in Hi. apply F2. lia.
      * rewrite F3; [apply I2; exact Hi|]. intros Hc. exact (Hf i Hc Hi).
    + intros b' [<-|Hb']; [|apply I3; exact Hb']. simpl. split; [lia|exact F1].
  - split; [exact I1|split; [exact I2|]]. intros b' [<-|Hb']; [|apply I3; exact Hb'].
    simpl. destruct (I3 b Hb) as [Hb1 Hb2], (I3 l Hl) as [Hl1 Hl2]. split; [lia|].
    unfold ps_join. rewrite Hb2, Hl2, Hadj, f_comm. symmetry. apply rsum_split; lia.
  - split; [exact I1|split; [exact I2|]]. intros b Hb. apply I3. apply Hincl. exact Hb.
Qed.

Lemma steps_inv m s : steps (ps_init m) s -> pinv (p_in m) s.
Proof.
  intros H. remember (ps_init m) as s0 eqn:E. induction H as [s|s1 s2 s3 H12 IH H23]; subst.
  - unfold pinv, ps_init; simpl. split; [reflexivity|split; [intros i []|]].
    intros b [<-|[]]. simpl. split; [lia|reflexivity].
  - apply (step_inv _ s2 s3 H23). apply IH. reflexivity.
Qed.

Theorem C46_parallel_prefix_sum (m : pmem) (n : nat) (s : pst) :
  steps (ps_init m) s -> ps_done n s ->
  (forall i, (i < n)%nat -> p_out (s_mem s) i = prefix f e (p_in m) (S i)) /\
  (forall i, (i < n)%nat -> p_out (s_mem s) i = p_out (fst (ps_sequential m n)) i) /\
  (forall b, In b (s_bodies s) -> b_lo b = 0%nat -> b_hi b = n -> b_sum b = prefix f e (p_in m) n).
Proof.
  intros Hs Hd. destruct (steps_inv m s Hs) as [I1 [I2 I3]].
  assert (Hp : forall i, (i < n)%nat -> p_out (s_mem s) i = prefix f e (p_in m) (S i)).
  { intros i Hi. rewrite I2 by (apply Hd; exact Hi). apply rsum_prefix. }
  split; [exact Hp|split].
  - intros i Hi. rewrite Hp by exact Hi. unfold ps_sequential.
    destruct (final_scan_correct (p_in m) m 0 n ltac:(lia)) as [_ [F2 _]]; [reflexivity|].
    replace (rsum (p_in m) 0 0) with e in F2 by reflexivity.
    rewrite F2 by lia. symmetry. apply rsum_prefix.
  - intros b Hb H0 Hh. destruct (I3 b Hb) as [_ ->]. rewrite H0, Hh. apply rsum_prefix.
Qed.
End Body.

(** TBBPrefixSum: operator[] (:127-134), value (:136-143), total_sum (:119-121), read after the scan. *)
Definition ps_at (d : nat -> Z) (i : nat) : Z := match i with O => 0 | S j => d j end.
Definition ps_value (d : nat -> Z) (i : nat) : Z := match i with O => d 0%nat | S j => d (S j) - d j end.

Lemma prefix_sumZ (d : nat -> Z) n : prefix Z.add 0 d n = sumZ d (seq 0 n).
Proof.
  unfold prefix. induction n as [|n IH]; [reflexivity|].
  rewrite (seq_S n 0), fold_left_app, sumZ_app, IH. simpl. lia.
Qed.

(** The exclusive prefix, the original values and the total are available after the scan, for every schedule.
    Used for hypernode/hyperedge renumbering in contraction, construction and counting sort. *)
Theorem C46_tbb_prefix_sum (data : nat -> Z) (n : nat) (s : pst (T := Z)) :
  steps Z.add 0 true (ps_init 0 (mkPM data data)) s -> ps_done n s ->
  (forall i, (i <= n)%nat -> ps_at (p_out (s_mem s)) i = sumZ data (seq 0 i)) /\
  (forall i, (i < n)%nat -> ps_value (p_out (s_mem s)) i = data i) /\
  (forall b, In b (s_bodies s) -> b_lo b = 0%nat -> b_hi b = n -> b_sum b = sumZ data (seq 0 n)).
Proof.
  intros Hs Hd.
  destruct (C46_parallel_prefix_sum Z.add 0 true Z.add_assoc Z.add_comm Z.add_0_l _ n s Hs Hd) as [P1 [_ P3]].
  simpl in P1, P3. split; [|split].
  - intros [|j] Hj; simpl; [reflexivity|]. rewrite P1 by lia. apply prefix_sumZ.
  - intros [|j] Hj; simpl.
    + rewrite P1 by lia. rewrite prefix_sumZ. simpl. lia.
    + rewrite !P1 by lia. rewrite !prefix_sumZ. rewrite (seq_S (S j) 0), sumZ_app. simpl. lia.
  - intros b Hb H0 Hh. rewrite (P3 b Hb H0 Hh). apply prefix_sumZ.
Qed.

(** A real parallel execution: two bodies, the right one pre-scans while the left one final-scans, then it is
    joined and performs its final scan. *)
Example ex_C46 :
  let data := fun i => Z.of_nat (3 * i + 1) in
  exists s, steps Z.add 0 true (ps_init 0 (mkPM data data)) s /\ ps_done 4 s /\
    map (p_out (s_mem s)) (seq 0 4) = [1; 5; 12; 22].
Proof.
  intros data.
  set (s0 := ps_init 0 (mkPM data data)).
  assert (H1 : step Z.add 0 true s0 (mkPst (s_mem s0) (s_fin s0) (mkBdy 2 2 0 :: s_bodies s0))) by apply st_split.
  set (s1 := mkPst (s_mem s0) (s_fin s0) (mkBdy 2 2 0 :: s_bodies s0)) in *.
  pose proof (st_pre Z.add 0 true s1 (mkBdy 2 2 0) 3 (or_introl eq_refl) ltac:(simpl; lia) ltac:(intros i Hi []))
    as H2.
  match type of H2 with step _ _ _ _ ?x => set (s2 := x) in * end.
  pose proof (st_final Z.add 0 true s2 (mkBdy 0 0 0) 2 ltac:(right; right; left; reflexivity) eq_refl
     ltac:(simpl; lia) ltac:(intros i Hi [])) as H3.
  match type of H3 with step _ _ _ _ ?x => set (s3 := x) in * end.
  pose proof (st_final Z.add 0 true s3 (mkBdy 0 2 5) 3 ltac:(left; reflexivity) eq_refl ltac:(simpl; lia)
     ltac:(simpl; intros i Hi [Hc|[Hc|[]]]; lia)) as H4.
  match type of H4 with step _ _ _ _ ?x => set (s4 := x) in * end.
  pose proof (st_join Z.add 0 true s4 (mkBdy 2 3 7) (mkBdy 0 2 5) ltac:(right; right; left; reflexivity)
     ltac:(right; left; reflexivity) eq_refl) as H5.
  match type of H5 with step _ _ _ _ ?x => set (s5 := x) in * end.
  pose proof (st_final Z.add 0 true s5 (mkBdy 0 3 12) 4 ltac:(left; reflexivity) eq_refl ltac:(simpl; lia)
     ltac:(simpl; intros i Hi [Hc|[Hc|[Hc|[]]]]; lia)) as H6.
  match type of H6 with step _ _ _ _ ?x => set (s6 := x) in * end.
  exists s6. split; [|split].
  - repeat (eapply steps_step; [|eassumption]). apply steps_refl.
  - intros i Hi. simpl. lia.
  - vm_compute. reflexivity.
Qed.
(** Why commutativity is needed: with an associative but non-commutative operation the join is in the wrong
    order ([sum] of the right part first).  No call site uses such an operation. *)
Example ps_join_order_matters :
  ps_join (fun a b : list nat => a ++ b) [2%nat] [1%nat] <> [1%nat] ++ [2%nat].
Proof. vm_compute. discriminate. Qed.
