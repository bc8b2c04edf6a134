(** The number of blocks and threads in deep multilevel partitioning (C87). *)
From Coq Require Import List Arith Lia Bool ZArith.
From Verif Require Import Base Deep DeepTree.
Import ListNotations.
Local Open Scope nat_scope.

(** *** Threads *)
Lemma cdiv_spec a b : 0 < b -> a <= cdiv a b * b /\ cdiv a b * b < a + b.
Proof.
  intros H. unfold cdiv. pose proof (Nat.div_mod a b ltac:(lia)) as D. pose proof (Nat.mod_upper_bound a b ltac:(lia)) as U.
  set (q := a / b) in *. set (m := a mod b) in *. destruct (m =? 0) eqn:E; eqb; rewrite (Nat.mul_comm b) in D; nia.
Qed.
Fixpoint tsum (f : nat -> nat) (n : nat) : nat := match n with 0 => 0 | S m => tsum f m + f m end.
Lemma tsum_const f c n : (forall i, i < n -> f i = c) -> tsum f n = n * c.
Proof. induction n as [|n IH]; intros H; cbn; auto. rewrite IH by (intros; apply H; lia). rewrite (H n) by lia. lia. Qed.

(** When a call with T threads on more than 2C nodes, but less than T * 2C, is
    replaced by parallel recursive calls, there are at least two calls, their
    threads add up to T (no subtraction wraps around), every call has at least
    one and less than T threads and at least 2C nodes per thread. *)
Theorem C87_threads C n T : 0 < C -> 2 * C < n -> n < T * (2 * C) ->
  2 <= num_calls C n T /\ exists ts, (forall i, i < num_calls C n T -> threads_of C n T i = Some (ts i)) /\
    tsum ts (num_calls C n T) = T /\
    forall i, i < num_calls C n T -> 1 <= ts i < T /\ ts i * (2 * C) <= n.
Proof.
  intros HC L1 L2. set (t0 := threads0 C n).
  assert (T0 : 1 <= t0 /\ t0 * (2 * C) <= n /\ t0 < T).
  { unfold t0, threads0. rewrite Nat.max_l by lia. split; [apply Nat.div_le_lower_bound; lia|].
    assert (X : n / (2 * C) * (2 * C) <= n) by (rewrite Nat.mul_comm; apply Nat.mul_div_le; lia). split; [exact X|].
    apply Nat.div_lt_upper_bound; lia. }
  destruct T0 as (T1 & T2 & T3). unfold num_calls. fold t0. set (c := cdiv T t0).
  destruct (cdiv_spec T t0 ltac:(lia)) as (C1 & C2). fold c in C1, C2.
  assert (Hc : 2 <= c). { destruct (Nat.le_gt_cases 2 c); auto. assert (c * t0 <= 1 * t0) by (apply Nat.mul_le_mono_r; lia). lia. }
  split; auto. set (t := cdiv T c). destruct (cdiv_spec T c ltac:(lia)) as (D1 & D2). fold t in D1, D2.
  assert (Lt : t <= t0). { destruct (Nat.le_gt_cases t t0) as [|G]; auto. assert (S t0 * c <= t * c) by (apply Nat.mul_le_mono_r; lia). cbn in *. nia. }
  assert (LT : (c - 1) * t < T).
  { assert ((c - 1) * t <= (c - 1) * t0) by (apply Nat.mul_le_mono_l; lia). rewrite Nat.mul_sub_distr_r in *. lia. }
  assert (Li : forall i, i < c -> i * t < T).
  { intros i Hi. assert (i * t <= (c - 1) * t) by (apply Nat.mul_le_mono_r; lia). lia. }
  assert (Ht : 1 <= t). { destruct t; cbn in *; lia. }
  exists (fun i => min t (T - i * t)). split; [|split].
  - intros i Hi. unfold threads_of, threads_per_call, num_calls. fold t0. fold c. fold t. cbv zeta.
    rewrite (proj2 (Nat.leb_le _ _)); [reflexivity|]. specialize (Li i Hi). lia.
  - replace c with (S (c - 1)) by lia. cbn [tsum]. rewrite (tsum_const _ t); [|].
    + rewrite Nat.min_r; [lia|]. rewrite Nat.mul_sub_distr_r in *. lia.
    + intros i Hi. apply Nat.min_l. assert ((S i) * t <= (c - 1) * t) by (apply Nat.mul_le_mono_r; lia). cbn in *. lia.
  - intros i Hi. specialize (Li i Hi). split; [lia|].
    assert (min t (T - i * t) * (2 * C) <= t0 * (2 * C)) by (apply Nat.mul_le_mono_r; lia). lia.
Qed.

(** *** Number of blocks *)
Section Ctl.
Variables (k C : nat).
Hypothesis Hk : 2 <= k.
Hypothesis HC : 0 < C.
Notation ls := (rb_levels k).
Notation sizes := (block_counts k).

(** the largest possible number of blocks for m nodes, at least two *)
Definition lev (m : nat) : nat := if m <? 2 * C then 2 else get_max ls C m.

Lemma two_in : In 2 sizes.
Proof. apply block_counts_in; auto. exists 1. destruct (log_pow k Hk) as (_ & L & _). cbn [Nat.pow]. lia. Qed.
Lemma sizes_le j : In j sizes -> 1 <= j <= k.
Proof. intros H. apply block_counts_in in H; auto. destruct H as (i & _ & ->). pose proof (pow_pos i). lia. Qed.
Lemma lev_in m : In (lev m) sizes /\ 2 <= lev m.
Proof.
  unfold lev. destruct (m <? 2 * C) eqn:E; eqb; [split; [apply two_in|lia]|].
  destruct (C87_max_blocks k C m Hk) as (H & _). destruct (H ltac:(lia)) as (A & _ & B). split; auto. apply B; auto; apply two_in.
Qed.
Lemma lev_max m j : In j sizes -> j * C <= m -> j <= lev m \/ j = 1.
Proof.
  intros Hj L. unfold lev. destruct (m <? 2 * C) eqn:E; eqb.
  - right. pose proof (sizes_le j Hj). destruct (Nat.le_gt_cases j 1); [lia|]. assert (2 * C <= j * C) by (apply Nat.mul_le_mono_r; lia). lia.
  - left. destruct (C87_max_blocks k C m Hk) as (H & _). destruct (H ltac:(lia)) as (_ & _ & B). apply B; auto.
Qed.
Lemma lev_fits m : lev m = 2 \/ lev m * C <= m.
Proof.
  unfold lev. destruct (m <? 2 * C) eqn:E; eqb; auto. right. apply (C87_max_blocks k C m Hk). lia.
Qed.
Lemma lev_mono m m' : m <= m' -> lev m <= lev m'.
Proof.
  intros L. destruct (lev_in m) as (I & G). destruct (lev_in m') as (I' & G'). destruct (lev_fits m) as [->|F]; auto.
  destruct (lev_max m' (lev m) I ltac:(lia)); lia.
Qed.

Lemma next_facts j : In j sizes -> 2 <= j ->
  (j = k /\ nextK ls j = Invalid) \/ (j < k /\ nextK ls j = Next (min (2 * j) k) /\ In (min (2 * j) k) sizes /\
     forall x, In x sizes -> j < x -> min (2 * j) k <= x).
Proof.
  intros Hj L. destruct (C87_next_blocks k j Hk Hj) as (N & I). pose proof (sizes_le j Hj). destruct (j =? k) eqn:E; eqb.
  - left. split; auto.
  - right. split; [lia|]. split; auto. split; [auto|]. intros x Hx Lx. apply block_counts_in in Hj, Hx; auto.
    destruct Hj as (i & Li & ->), Hx as (i' & Li' & ->).
    assert (i < i'). { destruct (Nat.lt_ge_cases i i') as [|G]; auto. assert (2 ^ i' <= 2 ^ i) by (apply Nat.pow_le_mono_r; lia). lia. }
    assert (2 ^ S i <= 2 ^ i') by (apply Nat.pow_le_mono_r; lia). cbn [Nat.pow] in *. lia.
Qed.

(** one level: the number of blocks becomes the largest possible one, unless it
    already is larger *)
Lemma extend_result m j r : extend ls C m j r -> In j sizes -> 2 <= j -> r = max j (lev m).
Proof.
  induction 1 as [j NT NL|j j' r N L E IH]; intros Hj Gj.
  - destruct (lev_in m) as (I & G). destruct (next_facts j Hj Gj) as [(Ek & Nx)|(Lk & Nx & In2 & Mn)].
    + pose proof (sizes_le _ I). lia.
    + unfold limit_for_rb in NL. rewrite Nx in NL. specialize (NL _ eq_refl).
      destruct (Nat.le_gt_cases (lev m) j) as [|X]; [lia|]. exfalso. specialize (Mn _ I X). destruct (lev_fits m) as [F|F]; [lia|].
      assert (min (2 * j) k * C <= lev m * C) by (apply Nat.mul_le_mono_r; lia). lia.
  - destruct (next_facts j Hj Gj) as [(Ek & Nx)|(Lk & Nx & In2 & Mn)]; rewrite Nx in N; [discriminate|]. injection N as <-.
    rewrite IH by (auto; lia). destruct (lev_max m _ In2 L) as [X|X]; lia.
Qed.
(** it ends *)
Lemma extend_total m j : In j sizes -> 2 <= j -> exists r, extend ls C m j r.
Proof.
  remember (k - j) as d eqn:Ed. revert j Ed. induction d as [d IH] using lt_wf_ind. intros j Ed Hj Gj.
  destruct (next_facts j Hj Gj) as [(Ek & Nx)|(Lk & Nx & In2 & Mn)].
  - exists j. apply ex_stop; [congruence|]. unfold limit_for_rb. rewrite Nx. discriminate.
  - destruct (Nat.le_gt_cases (min (2 * j) k * C) m) as [L|L].
    + destruct (IH (k - min (2 * j) k)) with (j := min (2 * j) k) as (r & E); auto; try lia. exists r. eapply ex_step; eauto.
    + exists j. apply ex_stop; [congruence|]. unfold limit_for_rb. rewrite Nx. intros b [= <-]. exact L.
Qed.
Lemma max_in a b : In a sizes -> In b sizes -> In (max a b) sizes.
Proof. intros A B. destruct (Nat.max_spec a b) as [(_ & ->)|(_ & ->)]; auto. Qed.
Lemma extend_main_result m j r : extend_main ls C m k j r -> In j sizes -> 2 <= j -> r = k.
Proof. induction 1; auto. intros Hj Gj. destruct (next_facts k0 Hj Gj) as [(Ek & Nx)|(Lk & Nx & In2 & Mn)]; [congruence|].
  rewrite Nx in H. injection H as <-. apply IHextend_main; auto. lia.
Qed.
Lemma extend_main_total m j : In j sizes -> 2 <= j -> exists r, extend_main ls C m k j r.
Proof.
  remember (k - j) as d eqn:Ed. revert j Ed. induction d as [d IH] using lt_wf_ind. intros j Ed Hj Gj.
  destruct (next_facts j Hj Gj) as [(Ek & Nx)|(Lk & Nx & In2 & Mn)].
  - exists j. apply em_stop; auto; [congruence|]. unfold limit_for_rb. rewrite Nx. discriminate.
  - destruct (IH (k - min (2 * j) k)) with (j := min (2 * j) k) as (r & E); auto; try lia. exists r. eapply em_step; eauto. right. lia.
Qed.
Lemma uncoarsen_result ms : forall n j r, uncoarsen ls C ms j r -> increasing_to n ms -> In j sizes -> 2 <= j ->
  In r sizes /\ 2 <= r /\ j <= r <= max j (lev n) .
Proof.
  induction ms as [|m ms IH]; intros n j r U Inc Hj Gj; inversion U as [|m' ms' j' k1 r' E U' E1 E2 E3]; subst.
  - repeat split; auto; lia.
  - destruct Inc as (L & Inc). pose proof (extend_result _ _ _ E Hj Gj) as ->. destruct (lev_in m) as (I & G).
    destruct (IH n _ r U' Inc (max_in _ _ Hj I) ltac:(lia)) as (A & B & D). repeat split; auto; try lia.
    assert (m <= n). { clear - L Inc. revert m L. induction ms as [|c ms IH]; intros m L; cbn in *; auto. destruct Inc as (L2 & Inc). apply (IH Inc). lia. }
    pose proof (lev_mono m n ltac:(lia)). lia.
Qed.
Lemma uncoarsen_total ms : forall j, In j sizes -> 2 <= j -> exists r, uncoarsen ls C ms j r.
Proof.
  induction ms as [|m ms IH]; intros j Hj Gj; [exists j; constructor|].
  destruct (extend_total m j Hj Gj) as (r & E). pose proof (extend_result _ _ _ E Hj Gj) as X. destruct (lev_in m) as (I & G).
  destruct (IH r) as (r' & U); [subst; now apply max_in|lia|]. exists r'. econstructor; eauto.
Qed.
Lemma hd_le n cs : increasing_to n cs -> hd n cs <= n.
Proof.
  induction cs as [|c cs IH]; cbn; auto. intros (L & I). specialize (IH I). lia.
Qed.

Scheme deep_mind := Minimality for deep Sort Prop with start_mind := Minimality for start Sort Prop.
Combined Scheme deep_start_ind from deep_mind, start_mind.

(** ** Theorem: every recursive call on n >= 2C nodes returns a partition into
    exactly the number of blocks determined by n - so all parallel calls agree
    and none exceeds the number of blocks its partition was created for - and the
    main call returns k blocks. *)
Lemma deep_blocks par :
  (forall main T n final_k r, deep ls C par main T n final_k r -> (main = true -> final_k = k) -> r = if main then k else lev n) /\
  (forall T n j, start ls C par T n j -> In j sizes /\ 2 <= j <= lev n).
Proof.
  apply (deep_start_ind ls C par (fun main T n final_k r => (main = true -> final_k = k) -> r = if main then k else lev n)
    (fun T n j => In j sizes /\ 2 <= j <= lev n)).
  - intros main T n fk cs k0 k1 r Inc St (I0 & G0) U E Hf. destruct (uncoarsen_result cs n k0 k1 U Inc I0 ltac:(lia)) as (I1 & G1 & L1).
    pose proof (lev_mono _ _ (hd_le n cs Inc)). destruct main.
    + rewrite (Hf eq_refl) in E. now apply (extend_main_result n k1 r E).
    + rewrite (extend_result _ _ _ E I1 G1). lia.
  - intros T n. split; [apply two_in|]. pose proof (lev_in n). lia.
  - intros T n rs ts Hp L1 L2 Ht Hd IH. destruct (C87_threads C n T HC L1 L2) as (Lc & _). rewrite (IH 0) by (try lia; discriminate).
    pose proof (lev_in n). destruct H. auto.
Qed.

Theorem C87_blocks par main T n final_k r : deep ls C par main T n final_k r ->
  (main = true -> final_k = k -> r = k) /\ (main = false -> 2 * C <= n -> r = get_max ls C n).
Proof.
  intros D. destruct (deep_blocks par) as (H & _). split; [intros -> Hf|intros -> Hn].
  - exact (H _ _ _ _ _ D (fun _ => Hf)).
  - rewrite (H _ _ _ _ _ D ltac:(discriminate)). unfold lev. rewrite (proj2 (Nat.ltb_ge _ _)); auto.
Qed.

(** The parallel recursion and the extension of the number of blocks always end:
    whatever the coarsening does (here: levels [cs] of a call with n nodes), a
    call has a result. *)
Theorem C87_terminates (main : bool) : forall T n cs, 0 < T -> increasing_to n cs ->
  exists k0 k1 r, start ls C true T (hd n cs) k0 /\
    (2 * C < hd n cs -> hd n cs < T * (2 * C) -> k0 = get_max ls C (hd n cs)) /\
    uncoarsen ls C cs k0 k1 /\ (if main then extend_main ls C n k k1 r else extend ls C n k1 r).
Proof.
  intros T. revert main. induction T as [T IH] using lt_wf_ind. intros main n cs PT Inc.
  assert (R : forall T', T' < T -> forall n, 0 < T' -> exists r, deep ls C true false T' n (get_max ls C n) r).
  { intros T' LT n' PT'. destruct (IH T' LT false n' [] PT' I) as (k0 & k1 & r & S1 & _ & U & E). exists r. econstructor; eauto. exact I. }
  assert (S0 : exists k0, start ls C true T (hd n cs) k0 /\ (2 * C < hd n cs -> hd n cs < T * (2 * C) -> k0 = get_max ls C (hd n cs))).
  { destruct (Nat.le_gt_cases (hd n cs) (2 * C)) as [L|L]; [exists 2; split; [constructor|lia]|].
    destruct (Nat.le_gt_cases (T * (2 * C)) (hd n cs)) as [L'|L']; [exists 2; split; [constructor|lia]|].
    destruct (C87_threads C _ T HC L L') as (Lc & ts & Ht & _ & Hts).
    exists (lev (hd n cs)). split.
    - apply (st_recursion ls C true T _ (fun _ => lev (hd n cs)) ts); auto.
      intros i Hi. destruct (Hts i Hi) as (B & _). destruct (R (ts i) ltac:(lia) (hd n cs) ltac:(lia)) as (r & D).
      pose proof (proj1 (deep_blocks true) _ _ _ _ _ D ltac:(discriminate)) as E. cbn in E. now subst r.
    - intros _ _. unfold lev. rewrite (proj2 (Nat.ltb_ge _ _)); auto. lia. }
  destruct S0 as (k0 & S1 & S2). destruct (proj2 (deep_blocks true) _ _ _ S1) as (I0 & G0).
  destruct (uncoarsen_total cs k0 I0 ltac:(lia)) as (k1 & U). destruct (uncoarsen_result cs n k0 k1 U Inc I0 ltac:(lia)) as (I1 & G1 & _).
  destruct main.
  - destruct (extend_main_total n k1 I1 G1) as (r & E). exists k0, k1, r. auto.
  - destruct (extend_total n k1 I1 G1) as (r & E). exists k0, k1, r. auto.
Qed.
End Ctl.

(** ** Example: 5 blocks, contraction limit multiplier 10.  The main call on 50
    nodes with 4 threads calls two recursions with 2 threads each, which coarsen
    to 30 nodes and call two recursions with one thread each; these bipartition
    20 nodes.  The numbers of blocks are 2 (20 and 30 nodes) and 5 (50 nodes). *)
Example C87_tree_example : rb_levels 5 = [[5]; [3; 2]; [2; 1; 1; 1]; [1; 1; 1; 1; 1]] /\
  targets 0 [2; 1; 1; 1] = [0; 2; 3; 4; 5] /\ block_ranges 0 [2; 1; 1; 1] = [0; 2; 3; 4; 5].
Proof. repeat split. Qed.
Example C87_run_example : deep (rb_levels 5) 10 true true 4 50 5 5.
Proof.
  assert (ST : forall m r, nextK (rb_levels 5) r <> Throws -> (forall b, limit_for_rb (rb_levels 5) 10 r = Some b -> m < b) -> extend (rb_levels 5) 10 m r r) by (intros; now constructor).
  assert (A : deep (rb_levels 5) 10 true false 1 30 2 2).
  { apply (dp_call _ _ _ false 1 30 2 [20] 2 2 2); [cbn; lia|constructor| |].
    - apply (uc_level _ _ 20 [] 2 2 2); [|constructor]. apply ST; [discriminate|]. intros b [= <-]. lia.
    - cbv iota. apply ST; [discriminate|]. intros b [= <-]. lia. }
  assert (B : deep (rb_levels 5) 10 true false 2 50 5 5).
  { apply (dp_call _ _ _ false 2 50 5 [30] 2 2 5); [cbn; lia| | |].
    - apply (st_recursion _ _ _ 2 30 (fun _ => 2) (fun _ => 1)); [reflexivity|lia|lia| |]; cbn [num_calls]; intros i Hi; change (i < 2) in Hi; [destruct i as [|[|i]]; [reflexivity|reflexivity|lia]|exact A].
    - apply (uc_level _ _ 30 [] 2 2 2); [|constructor]. apply ST; [discriminate|]. intros b [= <-]. lia.
    - cbv iota. apply (ex_step _ _ _ 2 4); [reflexivity|lia|]. apply (ex_step _ _ _ 4 5); [reflexivity|lia|]. apply ST; [discriminate|]. intros b E. discriminate. }
  apply (dp_call _ _ _ true 4 50 5 [] 5 5 5); [exact I| |constructor|].
  - apply (st_recursion _ _ _ 4 50 (fun _ => 5) (fun _ => 2)); [reflexivity|lia|lia| |]; intros i Hi; change (i < 2) in Hi; [destruct i as [|[|i]]; [reflexivity|reflexivity|lia]|exact B].
  - cbv iota. apply em_stop; [discriminate| |reflexivity]. intros b E. discriminate.
Qed.
