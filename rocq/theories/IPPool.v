(** Selecting the best initial partition.

    /repo/mt-kahypar/partition/initial_partitioning/initial_partitioning_data_container.h:
    55-99 (PartitioningResult), 263-279 (performRefinementOnBestPartition), 369-392
    (construction of the population), 486-520 (commit), 534-672 (apply);
    pool_initial_partitioner.cpp:46-96 (one task per run).

    Simplifications: imbalances and epsilon are integers (doubles that are not NaN
    are only compared here); the algorithm, statistics and objective_ip of a result
    are left out; the partition that belongs to a result is an abstract value [D].
    The result of a run is its quality and imbalance after refinement, whatever
    they are. *)
From Coq Require Import List Arith Lia Bool ZArith Permutation.
From Verif Require Import Base.
Import ListNotations.

(** PartitioningResult, 55-99 *)
Record result := mkR { r_obj : Z; r_imb : Z; r_tag : nat; r_dtag : nat }.

(** std::tie(a, b) < std::tie(c, d) *)
Definition tags_lt (x y : result) : bool :=
  (r_tag x <? r_tag y)%nat || ((r_tag x =? r_tag y)%nat && (r_dtag x <? r_dtag y)%nat).

(** is_other_better, 68-80 *)
Definition is_other_better (eps : Z) (self other : result) : bool :=
  let equal_metric := r_obj other =? r_obj self in
  let improved_metric := r_obj other <? r_obj self in
  let improved_imbalance := r_imb other <? r_imb self in
  let is_feasible := r_imb self <=? eps in
  let is_other_feasible := r_imb other <=? eps in
  (improved_metric && (is_other_feasible || improved_imbalance)) ||
  (equal_metric && improved_imbalance) ||
  (is_other_feasible && negb is_feasible) ||
  (improved_imbalance && negb is_other_feasible && negb is_feasible) ||
  (equal_metric && (r_imb self =? r_imb other) && tags_lt other self).

Section Pool.
Variables (D : Type) (eps : Z).
Definition entry : Type := (result * D)%type.
Definition better_than (self other : entry) : bool := is_other_better eps (fst self) (fst other).

(** *** Non-deterministic mode *)
(** 511-515: commit of a thread; its first result replaces the default one, which
    is worse (theorem), so a thread starts with its first commit here *)
Definition commit_local (best c : entry) : entry := if better_than best c then c else best.
Definition thread_best (first : entry) (rest : list entry) : entry := fold_left commit_local rest first.
(** 263-279: refinement of a thread's best partition; [f] is what it computes *)
Definition refine_best (f : entry -> entry) (best : entry) : entry := if better_than best (f best) then f best else best.
(** 618-634: the best of all threads, in the order of the thread-local storage *)
Definition scan (first : entry) (rest : list entry) : entry := fold_left commit_local rest first.

(** A run: the commits of each thread (a thread that took part has at least one),
    optional refinement, selection. *)
Definition run_local (refine : bool) (f : entry -> entry) (t0 : entry * list entry) (ts : list (entry * list entry)) : entry :=
  let best t := let b := thread_best (fst t) (snd t) in if refine then refine_best f b else b in
  scan (best t0) (map best ts).

(** *** Deterministic mode *)
(** 493-510.  [w] is the first entry as read before the lock is taken; [pool'] is
    the population afterwards: the first entry is replaced and the population is
    rearranged with pop_heap and push_heap.  Their contract needs a strict weak
    order, which the comparison is not (theorem), so here they may permute the
    population in any way. *)
Inductive commit_det (w : result) (c : entry) : list entry -> list entry -> Prop :=
| cd_skip pool : is_other_better eps w (fst c) = false -> commit_det w c pool pool
| cd_skip_locked r pool : is_other_better eps w (fst c) = true -> better_than r c = false -> commit_det w c (r :: pool) (r :: pool)
| cd_insert r pool pool' : is_other_better eps w (fst c) = true -> better_than r c = true -> Permutation pool' (c :: pool) -> commit_det w c (r :: pool) pool'.

(** The commits in the order in which they take effect.  The read before the lock
    yields the result of some entry that was in the population ([seen]: the
    default entry and earlier commits). *)
Inductive commits (seen : list entry) : list entry -> list entry -> list entry -> Prop :=
| cs_nil pool : commits seen [] pool pool
| cs_cons w c cs pool pool1 pool2 : In w seen -> commit_det (fst w) c pool pool1 ->
    commits (c :: seen) cs pool1 pool2 -> commits seen (c :: cs) pool pool2.

(** 545-548 (sort, again in any order) and 582-587 *)
Definition selected (pool : list entry) (e : entry) : Prop := exists x r, Permutation (x :: r) pool /\ e = scan x r.

(** 376-381, 486-520, 534-587 with perform_refinement_on_best_partitions switched
    off, as in the deterministic presets *)
Definition run_det (dflt : entry) (size : nat) (cs : list entry) (e : entry) : Prop :=
  exists pool, commits [dflt] cs (repeat dflt size) pool /\ selected pool e.
End Pool.

(** ** Specification *)
(** [a] is preferred to [b] *)
Definition preferred (eps : Z) (a b : result) : Prop :=
  (r_imb a <= eps /\ eps < r_imb b) \/
  (r_imb a <= eps /\ r_imb b <= eps /\
     (r_obj a < r_obj b \/ (r_obj a = r_obj b /\ (r_imb a < r_imb b \/ (r_imb a = r_imb b /\ tags_lt a b = true))))) \/
  (eps < r_imb a /\ eps < r_imb b /\ (r_imb a < r_imb b \/ (r_imb a = r_imb b /\ r_obj a = r_obj b /\ tags_lt a b = true))).

(** the same without the tags *)
Definition better_quality (eps : Z) (a b : result) : Prop :=
  (r_imb a <= eps /\ eps < r_imb b) \/
  (r_imb a <= eps /\ r_imb b <= eps /\ (r_obj a < r_obj b \/ (r_obj a = r_obj b /\ r_imb a < r_imb b))) \/
  (eps < r_imb a /\ eps < r_imb b /\ r_imb a < r_imb b).

Lemma preferred_spec eps a b : is_other_better eps b a = true <-> preferred eps a b.
Proof.
  unfold is_other_better, preferred. cbv zeta.
  destruct (Z.eqb_spec (r_obj a) (r_obj b)), (Z.ltb_spec (r_obj a) (r_obj b)), (Z.ltb_spec (r_imb a) (r_imb b)), (Z.leb_spec (r_imb b) eps), (Z.leb_spec (r_imb a) eps), (Z.eqb_spec (r_imb b) (r_imb a)), (tags_lt a b); cbn [andb orb negb]; intuition (try discriminate; try lia).
Qed.
Lemma tags_irrefl a : tags_lt a a = false.
Proof. unfold tags_lt. rewrite !Nat.ltb_irrefl. now rewrite andb_false_r. Qed.
Lemma tags_trans a b c : tags_lt a b = true -> tags_lt b c = true -> tags_lt a c = true.
Proof.
  unfold tags_lt. rewrite !orb_true_iff, !andb_true_iff, !Nat.ltb_lt, !Nat.eqb_eq. lia.
Qed.
Lemma tags_total a b : (r_tag a, r_dtag a) <> (r_tag b, r_dtag b) -> tags_lt a b = true \/ tags_lt b a = true.
Proof.
  unfold tags_lt. rewrite !orb_true_iff, !andb_true_iff, !Nat.ltb_lt, !Nat.eqb_eq. intros N.
  destruct (Nat.lt_trichotomy (r_tag a) (r_tag b)) as [|[E|]]; auto. destruct (Nat.lt_trichotomy (r_dtag a) (r_dtag b)) as [|[E'|]]; auto. congruence.
Qed.

(** ** Theorem: the comparison of results *)
(** It prefers feasible results, among feasible ones the better objective, then
    the smaller imbalance, then the tags; among infeasible ones the smaller
    imbalance.  It is a strict partial order. *)
Theorem C89_comparison eps : (forall a b, is_other_better eps b a = true <-> preferred eps a b) /\
  (forall a, ~ preferred eps a a) /\ (forall a b c, preferred eps a b -> preferred eps b c -> preferred eps a c) /\
  (forall a b, r_imb a <= eps -> (r_tag a, r_dtag a) <> (r_tag b, r_dtag b) -> preferred eps a b \/ preferred eps b a).
Proof.
  split; [apply preferred_spec|]. split; [|split].
  - intros a. unfold preferred. rewrite tags_irrefl. intuition (try lia; discriminate).
  - intros a b c. unfold preferred. pose proof (tags_trans a b c). intuition lia.
  - intros a b Fa N. pose proof (tags_total a b N). unfold preferred.
    destruct (Z.le_gt_cases (r_imb b) eps); [|left; lia].
    destruct (Z.lt_trichotomy (r_obj a) (r_obj b)) as [|[|]], (Z.lt_trichotomy (r_imb a) (r_imb b)) as [|[|]]; intuition lia.
Qed.
(** But it is not a strict weak order, as the heap and the sort need: of two
    infeasible results with equal imbalance, none is better if the objectives
    differ, so being incomparable is not transitive. *)
Theorem C89_refuted_weak_order eps : exists a b c,
  ~ preferred eps a b /\ ~ preferred eps b a /\ ~ preferred eps b c /\ ~ preferred eps c b /\ preferred eps a c.
Proof.
  exists (mkR 5 (eps + 1) 0 0), (mkR 3 (eps + 1) 0 1), (mkR 5 (eps + 1) 0 2). unfold preferred. cbn [r_obj r_imb].
  repeat split; try (intros [|[|]]; lia). right. right. repeat split; try lia. right. repeat split; lia.
Qed.

Section Proofs.
Variables (D : Type) (eps : Z).
Notation pref := (preferred eps).
Let irr := proj1 (proj2 (C89_comparison eps)).
Let tra := proj1 (proj2 (proj2 (C89_comparison eps))).

Lemma commit_cases (b c : entry D) : (pref (fst c) (fst b) /\ commit_local D eps b c = c) \/ (~ pref (fst c) (fst b) /\ commit_local D eps b c = b).
Proof.
  unfold commit_local, better_than. destruct (is_other_better eps (fst b) (fst c)) eqn:E; [left|right]; split; auto.
  - now apply preferred_spec.
  - intros X. apply preferred_spec in X. congruence.
Qed.
(** The fold over a list: the result is in it and nothing in it is preferred. *)
Lemma scan_spec rest : forall first : entry D, let e := scan D eps first rest in
  In e (first :: rest) /\ (e = first \/ pref (fst e) (fst first)) /\ (forall x, In x (first :: rest) -> ~ pref (fst x) (fst e)).
Proof.
  induction rest as [|c rest IH]; intros first; cbn [scan fold_left].
  - split; [left; reflexivity|]. split; [auto|]. intros x [->|[]]. apply irr.
  - destruct (IH (commit_local D eps first c)) as (A & B & C). cbv zeta in *. unfold scan in *.
    set (e := fold_left (commit_local D eps) rest (commit_local D eps first c)) in *.
    destruct (commit_cases first c) as [(P & E)|(P & E)]; rewrite E in A, B, C.
    + split; [destruct A as [A|A]; [right; left; auto|right; right; auto]|]. split.
      * right. destruct B as [->|B]; [exact P|exact (tra _ _ _ B P)].
      * intros x [->|[->|Hx]]; [|apply C; left; auto|apply C; right; auto].
        intros X. destruct B as [B|B]; [rewrite B in X; exact (irr _ (tra _ _ _ X P))|exact (irr _ (tra _ _ _ (tra _ _ _ X B) P))].
    + split; [destruct A as [A|A]; [left; auto|right; right; auto]|]. split; [exact B|].
      intros x [->|[->|Hx]]; [apply C; left; auto| |apply C; right; auto].
      intros X. destruct B as [B|B]; [rewrite B in X; auto|exact (P (tra _ _ _ X B))].
Qed.

(** ** Theorem: without determinism, for every assignment of runs to threads *)
(** the selected partition was computed (by a run, or by refining one), and no
    partition computed by a run has a better quality: none is feasible
    if the selected one is not, none is feasible with a better objective or with the
    same objective and a smaller imbalance, and if none is feasible, none has a
    smaller imbalance. *)
Theorem C89_selects_best refine f (t0 : entry D * list (entry D)) ts : let e := run_local D eps refine f t0 ts in
  let cs := flat_map (fun t => fst t :: snd t) (t0 :: ts) in
  (In e cs \/ (refine = true /\ exists c, In c cs /\ e = f c)) /\ (forall c, In c cs -> ~ better_quality eps (fst c) (fst e)).
Proof.
  intros e cs. set (best := fun t : entry D * list (entry D) => let b := thread_best D eps (fst t) (snd t) in if refine then refine_best D eps f b else b).
  assert (BT : forall t, (In (best t) (fst t :: snd t) \/ (refine = true /\ exists c, In c (fst t :: snd t) /\ best t = f c)) /\ (forall c, In c (fst t :: snd t) -> ~ pref (fst c) (fst (best t)))).
  { intros t. unfold best. cbv zeta. destruct (scan_spec (snd t) (fst t)) as (A & _ & C). cbv zeta in A, C. change (scan D eps (fst t) (snd t)) with (thread_best D eps (fst t) (snd t)) in *.
    set (b := thread_best D eps (fst t) (snd t)) in *. destruct refine; [|auto].
    change (refine_best D eps f b) with (commit_local D eps b (f b)). destruct (commit_cases b (f b)) as [(P & ->)|(P & ->)].
    - split; [right; split; auto; exists b; auto|]. intros c Hc X. exact (C c Hc (tra _ _ _ X P)).
    - auto. }
  change e with (scan D eps (best t0) (map best ts)). destruct (scan_spec (map best ts) (best t0)) as (A & _ & C). cbv zeta in A, C.
  set (s := scan D eps (best t0) (map best ts)) in *. change (best t0 :: map best ts) with (map best (t0 :: ts)) in A, C. split.
  - apply in_map_iff in A. destruct A as (t & E & Ht). rewrite <- E. destruct (BT t) as ([I|(R & c & Hc & E')] & _).
    + left. apply in_flat_map. exists t. auto.
    + right. split; auto. exists c. split; [apply in_flat_map; exists t; auto|exact E'].
  - intros c Hc X. apply in_flat_map in Hc. destruct Hc as (t & Ht & Hc). destruct (BT t) as (_ & N).
    specialize (C (best t) ltac:(now apply in_map)). specialize (N c Hc).
    revert X C N. generalize (fst c) (fst (best t)) (fst s). clear. intros a b d. unfold preferred, better_quality. intros X C N.
    destruct (Z.le_gt_cases (r_imb a) eps), (Z.le_gt_cases (r_imb b) eps), (Z.le_gt_cases (r_imb d) eps); try lia.
Qed.
End Proofs.

Section ProofsDet.
Variables (D : Type) (eps : Z).
Notation pref := (preferred eps).
Let irr := proj1 (proj2 (C89_comparison eps)).
Let tra := proj1 (proj2 (proj2 (C89_comparison eps))).
Let tot := proj2 (proj2 (proj2 (C89_comparison eps))).
Notation tags := (fun e : entry D => (r_tag (fst e), r_dtag (fst e))).

(** The most preferred of finitely many results with distinct tags, if one is feasible. *)
Lemma most_preferred (cs : list (entry D)) : NoDup (map tags cs) -> (exists c, In c cs /\ r_imb (fst c) <= eps) ->
  exists X, In X cs /\ r_imb (fst X) <= eps /\ (forall c, In c cs -> c = X \/ pref (fst X) (fst c)).
Proof.
  induction cs as [|a cs IH]; intros N (c & Hc & F); [destruct Hc|]. inversion N as [|? ? Na N']; subst.
  assert (DT : forall y, In y cs -> tags a <> tags y) by (intros y Hy E; apply Na, in_map_iff; exists y; split; [symmetry; exact E|exact Hy]).
  destruct (Exists_dec (fun c : entry D => r_imb (fst c) <= eps) cs ltac:(intros x; apply Z_le_dec)) as [Ex|Nx].
  - apply Exists_exists in Ex. destruct (IH N' Ex) as (X & HX & FX & PX).
    destruct (tot (fst X) (fst a) FX ltac:(intros E; apply (DT X HX); symmetry; exact E)) as [P|P].
    + exists X. split; [right; auto|]. split; auto. intros y [<-|Hy]; [right; exact P|apply PX; auto].
    + exists a. split; [left; auto|]. split; [revert P FX; unfold preferred; lia|].
      intros y [<-|Hy]; [left; auto|right]. destruct (PX y Hy) as [->|Q]; [exact P|exact (tra _ _ _ P Q)].
  - assert (Nx' : forall y, In y cs -> eps < r_imb (fst y)) by (intros y Hy; destruct (Z.le_gt_cases (r_imb (fst y)) eps); auto; exfalso; apply Nx, Exists_exists; eauto).
    destruct Hc as [->|Hc]; [|specialize (Nx' c Hc); lia].
    exists c. split; [left; auto|]. split; auto. intros y [<-|Hy]; [left; auto|right; left; auto].
Qed.

Lemma commit_det_pool w c pool pool' : commit_det D eps w c pool pool' -> length pool' = length pool /\ (forall x, In x pool' -> x = c \/ In x pool).
Proof.
  intros H. destruct H as [pool E|r pool E E'|r pool pool' E E' P]; auto.
  split; [rewrite (Permutation_length P); reflexivity|]. intros x Hx. apply (Permutation_in _ P) in Hx. destruct Hx; auto. right. right. auto.
Qed.

(** A result that is preferred to all others stays in the population. *)
Lemma commits_keep X cs : forall seen pool pool', (forall x, In x seen -> x = X \/ pref (fst X) (fst x)) ->
  (forall x, In x cs -> x = X \/ pref (fst X) (fst x)) -> (forall x, In x pool -> In x seen) -> (0 < length pool)%nat ->
  (In X seen -> In X pool) -> commits D eps seen cs pool pool' ->
  (forall x, In x pool' -> In x seen \/ In x cs) /\ ((In X seen \/ In X cs) -> In X pool') /\ (0 < length pool')%nat.
Proof.
  intros seen pool pool' HS HC HP HL HX H. revert HS HC HP HL HX.
  induction H as [seen pool|seen w c cs pool pool1 pool2 Hw Hd Hcs IH]; intros HS HC HP HL HX.
  - split; [auto|]. split; auto. intros [A|[]]. auto.
  - destruct (commit_det_pool _ _ _ _ Hd) as (L1 & I1).
    assert (K : In X (c :: seen) -> In X pool1).
    { intros HX'. destruct (HC c ltac:(left; auto)) as [->|PC].
      - (* the commit of X itself *)
        inversion Hd as [pool' E|r pool' E E'|r pool' pool'' E E' P]; subst.
        + destruct (HS w Hw) as [->|Q]; [apply HX, Hw|]. apply preferred_spec in Q. congruence.
        + destruct (HS r (HP r ltac:(left; auto))) as [->|Q]; [left; auto|]. apply preferred_spec in Q. unfold better_than in E'. congruence.
        + apply (Permutation_in _ (Permutation_sym P)). left. auto.
      - assert (HXs : In X seen) by (destruct HX' as [->|]; auto; exfalso; exact (irr _ PC)).
        specialize (HX HXs). inversion Hd as [pool' E|r pool' E E'|r pool' pool'' E E' P]; subst; auto.
        apply (Permutation_in _ (Permutation_sym P)). right. destruct HX as [->|HX]; auto.
        exfalso. unfold better_than in E'. apply preferred_spec in E'. exact (irr _ (tra _ _ _ PC E')). }
    destruct IH as (A & B & C).
    + intros x [->|Hx]; [apply HC; left; auto|apply HS, Hx].
    + intros x Hx. apply HC. right. auto.
    + intros x Hx. destruct (I1 x Hx) as [->|Hx']; [left; auto|right; auto].
    + unfold entry in *; lia.
    + exact K.
    + split; [|split]; auto.
      * intros x Hx. destruct (A x Hx) as [[->|Hx']|Hx']; [right; left; auto|auto|right; right; auto].
      * intros [Hx|[->|Hx]]; apply B; [left; right; auto|left; left; auto|auto].
Qed.

(** ** Theorem: with determinism *)
(** if one of the runs is feasible, then for every order in which the commits take
    effect, every population size, every way in which heap and sort rearrange the
    population and every entry that is read before the lock is taken, the selected
    partition is the same: the one that is preferred to all others. *)
Theorem C89_schedule_independent (cs : list (entry D)) dflt : NoDup (map tags cs) -> (exists c, In c cs /\ r_imb (fst c) <= eps) -> eps < r_imb (fst dflt) ->
  exists X, In X cs /\ r_imb (fst X) <= eps /\ (forall c, In c cs -> c = X \/ pref (fst X) (fst c)) /\
    (forall cs' size e, Permutation cs cs' -> (0 < size)%nat -> run_det D eps dflt size cs' e -> e = X).
Proof.
  intros N Ex FD. destruct (most_preferred cs N Ex) as (X & HX & FX & PX). exists X. split; [auto|]. split; [auto|]. split; [auto|].
  intros cs' size e P Hs (pool & H & x & r & PR & ->).
  assert (PD : pref (fst X) (fst dflt)) by (left; lia).
  destruct (commits_keep X cs' [dflt] (repeat dflt size) pool) as (A & B & C); auto.
  - intros y [<-|[]]; auto.
  - intros y Hy. apply PX. exact (Permutation_in _ (Permutation_sym P) Hy).
  - intros y Hy. apply repeat_spec in Hy. left. auto.
  - rewrite repeat_length. auto.
  - intros [<-|[]]. exfalso. exact (irr _ PD).
  - destruct (scan_spec D eps r x) as (I & _ & M). cbv zeta in *.
    assert (HXp : In X (x :: r)) by (apply (Permutation_in _ (Permutation_sym PR)), B; right; exact (Permutation_in _ P HX)).
    specialize (M X HXp). apply (Permutation_in _ PR), A in I.
    destruct I as [[I|[]]|I]; [rewrite <- I in M; contradiction|].
    destruct (PX _ (Permutation_in _ (Permutation_sym P) I)) as [E|Q]; [auto|contradiction].
Qed.

Lemma commits_min cs : forall seen pool pool', (forall x, In x seen -> eps < r_imb (fst x)) -> (forall x, In x cs -> eps < r_imb (fst x)) ->
  (forall x, In x seen -> exists y, In y pool /\ r_imb (fst y) <= r_imb (fst x)) -> (forall x, In x pool -> In x seen) ->
  commits D eps seen cs pool pool' ->
  (forall x, In x seen \/ In x cs -> exists y, In y pool' /\ r_imb (fst y) <= r_imb (fst x)) /\ (forall x, In x pool' -> In x seen \/ In x cs).
Proof.
  intros seen pool pool' FS FC MI HP H. revert FS FC MI HP.
  induction H as [seen pool|seen w c cs pool pool1 pool2 Hw Hd Hcs IH]; intros FS FC MI HP.
  - split; [|auto]. intros x [A|[]]. auto.
  - destruct (commit_det_pool _ _ _ _ Hd) as (_ & I1). pose proof (FC c ltac:(left; auto)) as Fc.
    assert (LE : forall y : entry D, eps < r_imb (fst y) -> is_other_better eps (fst y) (fst c) = false -> r_imb (fst y) <= r_imb (fst c)).
    { intros y Fy E. destruct (Z.le_gt_cases (r_imb (fst y)) (r_imb (fst c))); auto.
      assert (Q : pref (fst c) (fst y)) by (right; right; lia). apply preferred_spec in Q. congruence. }
    assert (LE' : forall y : entry D, eps < r_imb (fst y) -> is_other_better eps (fst y) (fst c) = true -> r_imb (fst c) <= r_imb (fst y)).
    { intros y Fy E. apply preferred_spec in E. revert E. unfold preferred. lia. }
    destruct IH as (A & B).
    + intros x [<-|Hx]; auto.
    + intros x Hx. apply FC. right. auto.
    + intros x Hx. inversion Hd as [pool' E|r pool' E E'|r pool' pool'' E E' P]; subst.
      * destruct Hx as [<-|Hx]; [|apply MI, Hx]. destruct (MI w Hw) as (y & Hy & L). exists y. split; auto. pose proof (LE w (FS w Hw) E). lia.
      * destruct Hx as [<-|Hx]; [|apply MI, Hx]. exists r. split; [left; auto|]. apply LE; auto. apply FS, HP. left. auto.
      * destruct Hx as [<-|Hx]; [exists c; split; [apply (Permutation_in _ (Permutation_sym P)); left; auto|lia]|].
        destruct (MI x Hx) as (y & [<-|Hy] & L).
        -- exists c. split; [apply (Permutation_in _ (Permutation_sym P)); left; auto|]. unfold better_than in E'. pose proof (LE' r (FS r (HP r ltac:(left; auto))) E'). lia.
        -- exists y. split; [apply (Permutation_in _ (Permutation_sym P)); right; auto|exact L].
    + intros x Hx. destruct (I1 x Hx) as [->|Hx']; [left; auto|right; auto].
    + split.
      * intros x [Hx|[<-|Hx]]; apply A; [left; right; auto|left; left; auto|auto].
      * intros x Hx. destruct (B x Hx) as [[<-|Hx']|Hx']; [right; left; auto|auto|right; right; auto].
Qed.

(** If no run is feasible, the selected partition was computed by a run and has
    the smallest imbalance. *)
Theorem C89_infeasible (cs : list (entry D)) dflt size e : (forall c, In c cs -> eps < r_imb (fst c) /\ r_imb (fst c) < r_imb (fst dflt)) -> cs <> [] ->
  (0 < size)%nat -> run_det D eps dflt size cs e -> In e cs /\ (forall c, In c cs -> r_imb (fst e) <= r_imb (fst c)).
Proof.
  intros F NE Hs (pool & H & x & r & PR & ->).
  assert (Fd : eps < r_imb (fst dflt)) by (destruct cs as [|c cs]; [contradiction|]; specialize (F c ltac:(left; auto)); lia).
  destruct (commits_min cs [dflt] (repeat dflt size) pool) as (A & B); auto.
  - intros y [<-|[]]; auto.
  - intros y Hy. apply F, Hy.
  - intros y [<-|[]]. exists dflt. split; [|lia]. destruct size; [lia|left; auto].
  - intros y Hy. apply repeat_spec in Hy. left. auto.
  - destruct (scan_spec D eps r x) as (I & _ & M). cbv zeta in *. set (e := scan D eps x r) in *. apply (Permutation_in _ PR), B in I.
    assert (Fe : eps < r_imb (fst e)) by (destruct I as [[<-|[]]|I]; [auto|apply F, I]).
    assert (Q : forall c, In c cs -> r_imb (fst e) <= r_imb (fst c)).
    { intros c Hc. destruct (A c (or_intror Hc)) as (y & Hy & L).
      assert (Fy : eps < r_imb (fst y)) by (destruct (B y Hy) as [[<-|[]]|Hy']; [auto|apply F, Hy']).
      specialize (M y (Permutation_in _ (Permutation_sym PR) Hy)). destruct (Z.le_gt_cases (r_imb (fst e)) (r_imb (fst y))); [lia|].
      exfalso. apply M. right. right. lia. }
    split; auto. destruct I as [[E|[]]|I]; auto. exfalso. destruct cs as [|c cs]; [contradiction|].
    specialize (Q c ltac:(left; auto)). specialize (F c ltac:(left; auto)). rewrite <- E in Q. lia.
Qed.
End ProofsDet.

(** ** Examples and refutations *)
Definition INF : Z := 1000.
Definition dflt : entry nat := (mkR INF INF 0 0, 999%nat).
Definition runA : entry nat := (mkR 10 2 7 0, 0%nat).
Definition runB : entry nat := (mkR 8 3 5 1, 1%nat).
Definition runC : entry nat := (mkR 2 9 1 2, 2%nat).
(** Three runs, a population of two, and two schedules. *)
Theorem C89_example : NoDup (map (fun e : entry nat => (r_tag (fst e), r_dtag (fst e))) [runA; runB; runC]) /\
  run_det nat 3 dflt 2 [runA; runB; runC] runB /\ run_det nat 3 dflt 2 [runC; runB; runA] runB /\
  run_local nat 3 false (fun e => e) (runC, [runA]) [(runB, [])] = runB.
Proof.
  split; [repeat constructor; cbn; intuition discriminate|]. split; [|split; [|reflexivity]].
  - exists [runA; runB]. split.
    + eapply cs_cons with (w := dflt); [left; reflexivity|eapply cd_insert; [reflexivity|reflexivity|apply perm_swap]|].
      eapply cs_cons with (w := dflt); [right; left; reflexivity|eapply cd_insert; [reflexivity|reflexivity|apply perm_swap]|].
      eapply cs_cons with (w := dflt); [cbn; tauto|eapply cd_skip_locked; [reflexivity|reflexivity]|]. apply cs_nil.
    + exists runA, [runB]. split; [reflexivity|reflexivity].
  - exists [runA; runB]. split.
    + eapply cs_cons with (w := dflt); [left; reflexivity|eapply cd_insert; [reflexivity|reflexivity|apply perm_swap]|].
      eapply cs_cons with (w := dflt); [right; left; reflexivity|eapply cd_insert with (pool' := [runC; runB]); [reflexivity|reflexivity|apply perm_swap]|].
      eapply cs_cons with (w := runC); [cbn; tauto|eapply cd_insert; [reflexivity|reflexivity|reflexivity]|]. apply cs_nil.
    + exists runA, [runB]. split; reflexivity.
Qed.

(** ** Theorem: if no run is feasible, the selection depends on the schedule. *)
(** Two infeasible results with the same imbalance: the one that is committed
    first is selected, whatever the objectives and tags are. *)
Definition runP : entry nat := (mkR 10 9 7 0, 0%nat).
Definition runQ : entry nat := (mkR 12 9 5 1, 1%nat).
Theorem C89_refuted_determinism : run_det nat 3 dflt 1 [runP; runQ] runP /\ run_det nat 3 dflt 1 [runQ; runP] runQ.
Proof.
  split; [exists [runP]|exists [runQ]]; (split; [|eexists _, []; split; reflexivity]).
  - eapply cs_cons with (w := dflt); [left; reflexivity|eapply cd_insert; reflexivity|].
    eapply cs_cons with (w := runP); [left; reflexivity|apply cd_skip; reflexivity|]. apply cs_nil.
  - eapply cs_cons with (w := dflt); [left; reflexivity|eapply cd_insert; reflexivity|].
    eapply cs_cons with (w := runQ); [left; reflexivity|apply cd_skip; reflexivity|]. apply cs_nil.
Qed.

(** ** Theorem: the read before the lock is not atomic. *)
(** Line 499 copies the first entry field by field without synchronisation.  If
    another commit replaces [runC] (infeasible, objective 2) by [runA] (feasible,
    objective 10) in between, the copy has the objective of one and the imbalance of
    the other, and a result that is preferred to both is dropped: the hypothesis
    [In w seen] of [commits] cannot be left out of the theorem above. *)
Definition runX : entry nat := (mkR 5 2 3 3, 3%nat).
Theorem C89_refuted_torn_read :
  let w := mkR (r_obj (fst runC)) (r_imb (fst runA)) (r_tag (fst runA)) (r_dtag (fst runA)) in
  preferred 3 (fst runX) (fst runA) /\ preferred 3 (fst runX) (fst runC) /\
  commits nat 3 [dflt] [runC; runA] [dflt] [runA] /\ commit_det nat 3 w runX [runA] [runA] /\ selected nat 3 [runA] runA.
Proof.
  split; [apply preferred_spec; reflexivity|]. split; [apply preferred_spec; reflexivity|]. split; [|split].
  - eapply cs_cons with (w := dflt); [left; reflexivity|eapply cd_insert; reflexivity|].
    eapply cs_cons with (w := runC); [left; reflexivity|eapply cd_insert; reflexivity|]. apply cs_nil.
  - apply cd_skip. reflexivity.
  - exists runA, []. split; reflexivity.
Qed.
Print Assumptions C89_schedule_independent.
Print Assumptions C89_infeasible.
Print Assumptions C89_selects_best.
