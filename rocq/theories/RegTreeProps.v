(** C84: the concurrent contraction protocol of the n-level coarsener.
    /repo/mt-kahypar/datastructures/contraction_tree.h:370-482,
    dynamic_hypergraph.cpp:52-86 and 534-617. *)
From Coq Require Import List Arith Lia Bool.
From Verif Require Import Base Batch BatchProps INAOps2 RegTree RegTreeSpec RegTreeInv RegTreeInv2 RegTreeForest.
Import ListNotations.
Local Open Scope nat_scope.

(** the lock a thread is waiting for *)
Definition wants (p : pc) : option nat :=
  match p with
  | RAcq _ v | RLoV v _ => Some v
  | RLoW _ w | RHiW _ w => Some w
  | CAcq1 x y => Some (Nat.min x y)
  | CAcq2 x y => Some (Nat.max x y)
  | CAcqU x _ _ _ => Some x
  | _ => None
  end.

Lemma exec_none mx t g p : p <> Idle -> exec mx t g p = None -> exists a, wants p = Some a /\ lk g a <> None.
Proof.
  intros N E. destruct p; cbn [exec] in E; unfold acquire in E; cbv zeta in E;
  try (match type of E with context [if ?b then _ else _] => idtac end;
       repeat match type of E with context [if ?b then _ else _] => destruct b end; discriminate E);
  try discriminate E; try congruence;
  try (destruct l; discriminate E);
  match type of E with match lk ?g ?a with _ => _ end = _ => exists a; split; [reflexivity|destruct (lk g a); [discriminate|discriminate E]] end.
Qed.

Lemma wants_order n mx g p a b : pcok n mx g p -> wants p = Some a -> In b (holds p) -> b < a.
Proof.
  intros OK W H. destruct p; cbn in *; try discriminate W; try tauto; injection W as <-; try (destruct H as [<-|[]]; lia); try lia.
Qed.

Lemma wants_lt n mx g p a : pcok n mx g p -> wants p = Some a -> a < n.
Proof.
  intros OK W. destruct p; cbn in *; try discriminate W; injection W as <-; lia.
Qed.

(** No deadlock on the node locks: whenever some thread is inside a call, some
    thread inside a call can take a step. *)
Theorem C84_no_deadlock n mx w0 g pcs t : run n mx w0 (g, pcs) -> pcs t <> Idle ->
  exists t' g' p', pcs t' <> Idle /\ exec mx t' g (pcs t') = Some (g', p').
Proof.
  intros R. pose proof (run_inv _ _ _ _ R) as I.
  assert (H : forall k t, pcs t <> Idle -> (forall a, wants (pcs t) = Some a -> n <= a + k) ->
    exists t' g' p', pcs t' <> Idle /\ exec mx t' g (pcs t') = Some (g', p')).
  { induction k as [|k IH]; intros u N B;
    destruct (exec mx u g (pcs u)) as [(g', p')|] eqn:E; try (exists u, g', p'; auto; fail);
    destruct (exec_none _ _ _ _ N E) as (a & Wa & La);
    pose proof (wants_lt _ _ _ _ _ (i_pc _ _ _ _ I u) Wa) as Lt; specialize (B a Wa).
    - lia.
    - destruct (lk g a) as [t'|] eqn:Ea; [|congruence]. apply (i_lk _ _ _ _ I) in Ea. cbn in Ea.
      apply (IH t').
      + intro Z. rewrite Z in Ea. destruct Ea.
      + intros b Wb. pose proof (wants_order _ _ _ _ _ _ (i_pc _ _ _ _ I t') Wb Ea). lia. }
  intro N. apply (H n t N). lia.
Qed.

(** The contractions that take effect form a legal sequential contraction
    sequence (for every interleaving): every node is contracted at most once,
    onto a node that is still present, within the weight limit; exactly the
    disabled nodes were contracted, and onto their parent in the tree. *)
Theorem C84_contractions n mx w0 g pcs : run n mx w0 (g, pcs) ->
  contr n mx w0 (log g) (en g) (wt g) /\
  (forall x y, In (x, y) (log g) <-> en g y = false /\ par g y = x).
Proof. intro R. pose proof (run_inv _ _ _ _ R) as I. split; [apply (i_log _ _ _ _ I)|apply (i_log2 _ _ _ _ I)]. Qed.

Lemma total_ext n e e' w w' : (forall v, v < n -> e v = e' v /\ (e v = true -> w v = w' v)) -> total n e w = total n e' w'.
Proof.
  intro H. induction n as [|n IH]; cbn; auto. rewrite IH by (intros; apply H; lia). destruct (H n) as (A & B); [lia|].
  rewrite <- A. destruct (e n); auto.
Qed.

Lemma total_split n e w a : a < n -> e a = true -> total n e w = total n (setf e a false) w + w a.
Proof.
  intros L E. induction n as [|n IH]; [lia|]. cbn. unfold setf at 2. destruct (n =? a) eqn:Q; eqb.
  - subst. rewrite E. rewrite (total_ext a (setf e a false) e w w); [lia|].
    intros v Hv. unfold setf. rewrite (proj2 (Nat.eqb_neq v a)) by lia. auto.
  - rewrite IH by lia. lia.
Qed.

Lemma total_merge n e w x y : x < n -> y < n -> x <> y -> e x = true -> e y = true ->
  total n (setf e y false) (setf w x (w x + w y)) = total n e w.
Proof.
  intros Lx Ly N Ex Ey. rewrite (total_split n e w y Ly Ey).
  assert (Ex' : setf e y false x = true) by (unfold setf; now rewrite (proj2 (Nat.eqb_neq x y) N)).
  rewrite (total_split n (setf e y false) w x Lx Ex'), (total_split n (setf e y false) (setf w x (w x + w y)) x Lx Ex').
  rewrite (total_ext n _ (setf (setf e y false) x false) (setf w x (w x + w y)) w).
  - unfold setf at 3. rewrite Nat.eqb_refl. lia.
  - intros v Lv. split; auto. unfold setf. destruct (v =? x); auto. discriminate.
Qed.

(** What a legal contraction sequence means for the nodes: the total weight is
    that of the input, no weight exceeds the limit unless it did in the input,
    and no node is contracted twice. *)
Theorem C84_weights n mx w0 l e w : contr n mx w0 l e w ->
  total n e w = total n (fun _ => true) w0 /\
  (forall v, w v <= Nat.max mx (w0 v)) /\
  NoDup (map snd l) /\ (forall y, In y (map snd l) <-> e y = false).
Proof.
  induction 1 as [|l e w x y C (IH1 & IH2 & IH3 & IH4) Lx Ly N Ex Ey W].
  - repeat split; auto; try lia; cbn; try constructor; try tauto; discriminate.
  - split; [rewrite total_merge; auto|]. split; [|split].
    + intro v. unfold setf. destruct (v =? x) eqn:Q; eqb; [lia|auto].
    + rewrite map_app. cbn. apply NoDup_app_i; auto.
      * repeat constructor. intros [].
      * intros a A [<-|[]]. apply IH4 in A. congruence.
    + intro a. rewrite map_app, in_app_iff, IH4. cbn. unfold setf. destruct (a =? y) eqn:Q; eqb; intuition congruence.
Qed.

Lemma contr_le n mx w0 l e w : contr n mx w0 l e w -> forall v, v < n -> w v <= total n (fun _ => true) w0.
Proof.
  intro C. induction C as [|l e w x y C IH Lx Ly N Ex Ey W]; intros v L.
  - rewrite (total_split n (fun _ => true) w0 v L eq_refl). lia.
  - unfold setf. destruct (v =? x) eqn:Q; eqb; auto.
    destruct (C84_weights _ _ _ _ _ _ C) as (T & _). rewrite <- T.
    rewrite (total_split n e w y Ly Ey). rewrite (total_split n (setf e y false) w x Lx); [lia|].
    unfold setf. now rewrite (proj2 (Nat.eqb_neq x y) N).
Qed.

(** The assertions of the code hold whenever they are reached:
    a registered contraction is unregistered only if it is the registered one and
    the counter of its representative is positive (contraction_tree.h:470-471),
    and a contraction is executed only onto an enabled node, the one it is
    registered for (dynamic_hypergraph.cpp:559), after all contractions onto the
    contracted node have been completed. *)
Theorem C84_assertions n mx w0 g pcs t : run n mx w0 (g, pcs) ->
  (forall x y, pcs t = CUnr x y \/ (exists s e, pcs t = CDec x y s e) -> par g y = x /\ 0 < pend g x) /\
  (forall x y, pcs t = CTest x y -> en g y = true -> pend g y = 0 -> wt g x + wt g y <= mx ->
     en g x = true /\ par g y = x /\ x <> y /\
     forall v, v < n -> v <> y -> par g v = y -> en g v = false /\ iv g v <> None).
Proof.
  intro R. pose proof (run_inv _ _ _ _ R) as I. pose proof (i_pc _ _ _ _ I t) as OK. cbn in OK. split.
  - intros x y H. assert (Q : x < n /\ y < n /\ x <> y /\ par g y = x /\ iv g y = None).
    { destruct H as [E|(s & e & E)]; rewrite E in OK; cbn in OK; repeat split; try tauto.
      apply (en_iv n mx w0 g pcs I). tauto. }
    destruct Q as (Lx & Ly & N & P & V).
    destruct (busy_parent n mx w0 g pcs I x y t) as (_ & B & _); auto; try (destruct H as [E|(s & e & E)]; rewrite E; cbn; auto).
  - intros x y E Ey Py W. pose proof OK as O. rewrite E in O. cbn [pcok] in O. destruct O as (Lx & Ly & N & S).
    assert (P : par g y = x) by (destruct S as [S|[S|S]]; [exact S|lia|congruence]).
    destruct (busy_parent n mx w0 g pcs I x y t) as (_ & _ & C); auto; try (rewrite E; cbn; auto; fail).
    { apply (en_iv n mx w0 g pcs I); auto. }
    repeat split; auto; pose proof (i_pend _ _ _ _ I y Ly) as Q; cbn in Q;
      rewrite (own_holder n mx w0 g pcs I y t), E in Q by (rewrite E; cbn; auto); cbn in Q;
      assert (C0 : cnt n g y = 0) by lia; pose proof (count_0 _ _ C0 v H) as O; unfold opn in O;
      rewrite (proj2 (Nat.eqb_neq _ _) H0), H1, Nat.eqb_refl in O; cbn in O; destruct (iv g v) eqn:F; try discriminate.
    exact (i_iv _ _ _ _ I v _ F).
Qed.

(** When all threads are idle, the counter of every node is the number of
    contractions that are registered onto it and have not been executed. *)
Theorem C84_pending n mx w0 g pcs : run n mx w0 (g, pcs) -> (forall t, pcs t = Idle) ->
  forall u, u < n -> pend g u = count n (fun v => negb (v =? u) && (par g v =? u) && en g v).
Proof.
  intros R Q u L. pose proof (run_inv _ _ _ _ R) as I. pose proof (i_pend _ _ _ _ I u L) as C. cbn in C.
  assert (O : own g pcs u = Idle) by (unfold own; destruct (lk g u); auto).
  rewrite O in C. cbn in C. unfold cnt in C. rewrite !Nat.add_0_r in C. rewrite C. apply count_ext. intros v Lv. unfold opn.
  f_equal. destruct (iv g v) eqn:F.
  - symmetry. exact (i_iv _ _ _ _ I v _ F).
  - destruct (en g v) eqn:E; auto. destruct (i_open _ _ _ _ I v E F) as (t & x & Ph). cbn in Ph. rewrite Q in Ph. discriminate.
Qed.

(** When all threads are idle and the contraction tree is a forest, no
    contraction is left behind: every enabled node is a root and has no pending
    contractions, and every registered node is contracted. *)
Theorem C84_all_done n mx w0 g pcs : run n mx w0 (g, pcs) -> (forall t, pcs t = Idle) -> forest n (par g) ->
  forall v, v < n -> (en g v = true <-> par g v = v) /\ pend g v = 0.
Proof.
  intros R Q F v L. pose proof (run_inv _ _ _ _ R) as I. pose proof (forest_no_pending n mx w0 g pcs I Q F) as H.
  split; [split; [auto|]|].
  - intro P. destruct (en g v) eqn:E; auto. destruct (i_dis _ _ _ _ I v E) as (N & _). cbn in N. congruence.
  - rewrite (C84_pending n mx w0 g pcs R Q v L).
    destruct (count n _) as [|k] eqn:E; auto. exfalso.
    destruct (count_ex n (fun c => negb (c =? v) && (par g c =? v) && en g c)) as (c & Lc & Hc); [lia|].
    eqb. assert (par g c = c) by auto. congruence.
Qed.

(** If final cycle checks do not overlap, the contraction tree is a forest at
    all times. *)
Theorem C84_forest n mx w0 g pcs : srun n mx w0 (g, pcs) -> forest n (par g).
Proof. intro R. exact (s_forest _ _ (srun_sinv _ _ _ _ R)). Qed.

(** ... and when all threads are idle it is a complete, correctly versioned
    contraction forest, as required for the batch hierarchy (property C80),
    with intervals in which every contraction ends after it starts and before
    its representative's own contraction starts. *)
Theorem C84_tree n mx w0 g pcs : srun n mx w0 (g, pcs) -> (forall t, pcs t = Idle) ->
  forest_ok (tree_of n g) /\
  (forall v, v < n -> par g v <> v <-> en g v = false) /\
  (forall v, v < n -> par g v <> v -> exists k a b, ver g v = Some k /\ k <= cv g /\ iv g v = Some (a, b) /\ a < b <= ix g /\
     forall a' b', iv g (par g v) = Some (a', b') -> b <= a').
Proof.
  intros R Q. pose proof (run_inv _ _ _ _ (srun_run _ _ _ _ R)) as I. pose proof (srun_sinv _ _ _ _ R) as S.
  pose proof (C84_all_done n mx w0 g pcs (srun_run _ _ _ _ R) Q (s_forest _ _ S)) as A.
  assert (D : forall v, v < n -> par g v <> v -> en g v = false).
  { intros v L N. destruct (en g v) eqn:E; auto. destruct (A v L) as ((B & _) & _). destruct N. auto. }
  split; [split; cbn [tree_of ct_n ct_parent ct_ver]|split].
  - apply (i_par _ _ _ _ I).
  - apply forest_depth; [apply (i_par _ _ _ _ I)|exact (s_forest _ _ S)].
  - intros v L P. now apply (i_ver _ _ _ _ I).
  - intros v k L N V. destruct (ver g (par g v)) as [j|] eqn:E; auto. right. exists j. split; auto.
    exact (s_ver2 _ _ S v k j L V E).
  - intros v L. split; [auto|]. intros E. destruct (i_dis _ _ _ _ I v E) as (N & _). exact N.
  - intros v L N. pose proof (D v L N) as E.
    destruct (ver g v) as [k|] eqn:V; [|apply (i_ver _ _ _ _ I) in V; cbn in V; congruence].
    destruct (iv g v) as [(a, b)|] eqn:F; [|destruct (i_open _ _ _ _ I v E F) as (t & x & Ph); cbn in Ph; rewrite Q in Ph; discriminate].
    destruct (i_ivl _ _ _ _ I v a b F) as (B & _). cbn in B.
    exists k, a, b. repeat split; auto; try lia. { exact (i_ver2 _ _ _ _ I v k V). }
    intros a' b' F'. destruct (i_ivl _ _ _ _ I _ a' b' F') as (_ & K). destruct (K v L) as (s0 & e0 & G0 & Le); auto.
    cbn in G0. rewrite F in G0. injection G0 as <- <-. exact Le.
Qed.

(** A single thread never overlaps with itself. *)
Inductive run1 (n mx : nat) (w0 : nat -> nat) : St -> Prop :=
| run1_0 : run1 n mx w0 (g0 w0, fun _ => Idle)
| run1_S s s' : run1 n mx w0 s -> step n mx s s' -> (forall t, t <> 0 -> snd s' t = Idle) -> run1 n mx w0 s'.

Theorem C84_single_thread n mx w0 g pcs : run1 n mx w0 (g, pcs) -> srun n mx w0 (g, pcs).
Proof.
  generalize (g, pcs). induction 1 as [|s s' R IH S H]; [constructor|]. econstructor; eauto.
  intros t1 t2 A B. destruct (Nat.eq_dec t1 0) as [->|N1]; [|rewrite (H t1 N1) in A; discriminate].
  destruct (Nat.eq_dec t2 0) as [->|N2]; [|rewrite (H t2 N2) in B; discriminate]. reflexivity.
Qed.

(** ** The protocol does not keep the tree acyclic *)

(** executable schedules: thread [t] starts a call, or takes up to [k] steps *)
Inductive act := Call (t u v : nat) | Go (t k : nat).

Fixpoint go (mx t k : nat) (s : St) : St :=
  match k with
  | O => s
  | S j => match exec mx t (fst s) (snd s t) with
           | Some (g', p') => go mx t j (g', upd (snd s) t p')
           | None => s
           end
  end.

Definition doact (n mx : nat) (a : act) (s : St) : St :=
  match a with
  | Go t k => go mx t k s
  | Call t u v =>
      match snd s t with
      | Idle => if (u <? n) && (v <? n) && negb (u =? v) then (fst s, upd (snd s) t (RAcq u v)) else s
      | _ => s
      end
  end.

Definition sched (n mx : nat) (w0 : nat -> nat) (l : list act) : St :=
  fold_left (fun s a => doact n mx a s) l (g0 w0, fun _ => Idle).

Inductive steps (n mx : nat) (s : St) : St -> Prop :=
| steps_0 : steps n mx s s
| steps_S s1 s2 : steps n mx s s1 -> step n mx s1 s2 -> steps n mx s s2.

Lemma go_run n mx w0 t k s : run n mx w0 s -> run n mx w0 (go mx t k s).
Proof.
  revert s. induction k as [|k IH]; intros (g, pcs) R; cbn; auto.
  destruct (exec mx t g (pcs t)) as [(g', p')|] eqn:E; auto. apply IH. eapply run_S; [exact R|]. now constructor.
Qed.

Lemma sched_run n mx w0 l : run n mx w0 (sched n mx w0 l).
Proof.
  unfold sched. assert (H : forall s, run n mx w0 s -> run n mx w0 (fold_left (fun s a => doact n mx a s) l s)).
  { induction l as [|a l IH]; intros s R; [exact R|]. cbn [fold_left]. apply IH. destruct a as [t u v|t k]; [|now apply go_run].
    destruct s as (g, pcs). cbn [doact fst snd]. destruct (pcs t) eqn:E; auto.
    destruct ((u <? n) && (v <? n) && negb (u =? v)) eqn:B; auto. eqb. eapply run_S; [exact R|]. now constructor. }
  apply H. constructor.
Qed.

(** Nodes 0=v, 1=w, 2=r, 3=d, 4, 5, 6.  Threads 1 and 2 have registered 4 onto 1
    and 5 onto 3 and are about to contract; thread 3 registers 1 onto 2 and 3
    onto 0 (both postponed).  Then thread 3 registers 0 onto 1 and thread 4
    registers 2 onto 3: both pass their final cycle check before either of them
    has entered its contraction. *)
Definition prefix : list act :=
  [Call 1 1 4; Go 1 14; Call 2 3 5; Go 2 14;
   Call 3 2 1; Go 3 50; Call 3 0 3; Go 3 50;
   Call 3 1 0; Go 3 8; Call 4 3 2; Go 4 8].
Definition finish : list act := [Go 3 50; Go 4 50; Go 1 50; Go 2 50].

Definition s_cyc : St := sched 7 100 (fun _ => 1) (prefix ++ finish).
Definition s_hang : St := sched 7 100 (fun _ => 1) (prefix ++ finish ++ [Call 5 1 6; Go 5 9]).


(** A set of registered, uncontracted nodes, each of which has its parent and a
    child in the set. *)
Definition ring (n : nat) (C : list nat) (g : G) : Prop := forall c, In c C ->
  c < n /\ en g c = true /\ par g c <> c /\ In (par g c) C /\ exists c', In c' C /\ par g c' = c.

Lemma ring_step n mx w0 C s s' : run n mx w0 s -> 2 * total n (fun _ => true) w0 <= mx ->
  ring n C (fst s) -> step n mx s s' -> ring n C (fst s') /\ forall c, In c C -> par (fst s') c = par (fst s) c.
Proof.
  intros R M Rg S. pose proof (run_inv _ _ _ _ R) as I. destruct S as [g pcs t u v E Lu Lv N|g pcs t g' p X|g pcs Q]; cbn [fst] in *; auto.
  pose proof (i_pc _ _ _ _ I t) as OK. cbn in OK.
  assert (P : forall c, In c C -> par g' c = par g c).
  { intros c Hc. destruct (Rg c Hc) as (Lc & Ec & Nc & _).
    destruct (exec_ver _ _ _ _ _ _ X) as (_ & [(_ & ->)|[(v & w & E & _ & ->)|(x & y & E & _ & ->)]]); auto;
    rewrite E in OK; cbn [pcok] in OK.
    - rewrite upd_other; auto. intros ->. tauto.
    - exfalso. destruct OK as (Lx & Ly & _ & _ & _ & _ & W).
      pose proof (contr_le _ _ _ _ _ _ (i_log _ _ _ _ I) x Lx). pose proof (contr_le _ _ _ _ _ _ (i_log _ _ _ _ I) y Ly). cbn in *. lia. }
  split; auto. intros c Hc. destruct (Rg c Hc) as (Lc & Ec & Nc & Ic & c' & Hc' & Pc').
  rewrite (P c Hc). repeat split; auto; [|exists c'; split; auto; now rewrite P].
  destruct (exec_log _ _ _ _ _ _ X) as [(_ & -> & _)|(x & y & E & -> & Ey & Py & W)]; auto.
  cbn. unfold upd. destruct (c =? y) eqn:Q; auto. eqb. subst y. exfalso.
  destruct (Rg c' Hc') as (Lc' & Ec' & Nc' & _).
  pose proof (i_pend _ _ _ _ I c Lc) as Z. cbn in Z. rewrite (own_holder n mx w0 g pcs I c t), E in Z by (rewrite E; cbn; auto). cbn in Z.
  assert (1 <= cnt n g c); [|lia]. apply (count_pos n (opn g c) c' Lc'). apply opn_true; auto; [congruence|]. apply (en_iv n mx w0 g pcs I). exact Ec'.
Qed.

Lemma steps_run n mx w0 s s' : run n mx w0 s -> steps n mx s s' -> run n mx w0 s'.
Proof. intros R S. induction S; auto. econstructor; eauto. Qed.

Lemma ring_steps n mx w0 C s s' : run n mx w0 s -> 2 * total n (fun _ => true) w0 <= mx ->
  ring n C (fst s) -> steps n mx s s' -> ring n C (fst s') /\ forall c, In c C -> par (fst s') c = par (fst s) c.
Proof.
  intros R M Rg S. induction S as [|s1 s2 S IH S']; auto. destruct IH as (A & B).
  destruct (ring_step n mx w0 C s1 s2 (steps_run _ _ _ _ _ R S) M A S') as (A' & B'). split; auto. intros c Hc. rewrite B', B; auto.
Qed.

Lemma cyc_run : run 7 100 (fun _ => 1) s_cyc.
Proof. exact (sched_run 7 100 (fun _ => 1) (prefix ++ finish)). Qed.

Lemma hang_run : run 7 100 (fun _ => 1) s_hang.
Proof. exact (sched_run 7 100 (fun _ => 1) (prefix ++ finish ++ [Call 5 1 6; Go 5 9])). Qed.

Lemma wlim : 2 * total 7 (fun _ => true) (fun _ => 1) <= 100.
Proof. cbn. lia. Qed.

Lemma cyc_ring : ring 7 [0; 1; 2; 3] (fst s_cyc).
Proof.
  intros c [<-|[<-|[<-|[<-|[]]]]]; repeat split; try (vm_compute; auto; lia).
  - exists 3. split; vm_compute; auto.
  - exists 0. split; vm_compute; auto.
  - exists 1. split; vm_compute; auto.
  - exists 2. split; vm_compute; auto.
Qed.

Lemma hang_ring : ring 7 [0; 1; 2; 3] (fst s_hang).
Proof.
  intros c [<-|[<-|[<-|[<-|[]]]]]; repeat split; try (vm_compute; auto; lia).
  - exists 3. split; vm_compute; auto.
  - exists 0. split; vm_compute; auto.
  - exists 1. split; vm_compute; auto.
  - exists 2. split; vm_compute; auto.
Qed.

(** Refuted: "the contraction tree is a forest".  Two concurrent registrations can
    close a cycle; although every call has returned, its nodes stay registered,
    are never contracted and stay on the cycle for ever. *)
Theorem C84_refuted_cycle : exists n mx w0 s, run n mx w0 s /\ (forall t, snd s t = Idle) /\ ~ forest n (par (fst s)) /\
  forall s' c, steps n mx s s' -> In c [0; 1; 2; 3] -> on_cycle (par (fst s')) c /\ en (fst s') c = true.
Proof.
  exists 7, 100, (fun _ => 1), s_cyc.
  assert (T : forall s', steps 7 100 s_cyc s' -> forall c, In c [0;1;2;3] -> par (fst s') c = par (fst s_cyc) c /\ en (fst s') c = true /\ par (fst s') c <> c).
  { intros s' S c Hc. destruct (ring_steps 7 100 (fun _ => 1) _ _ _ cyc_run wlim cyc_ring S) as (A & B).
    destruct (A c Hc) as (_ & E & N & _). repeat split; auto. }
  split; [exact cyc_run|]. split; [|split].
  - intro t. do 6 (destruct t as [|t]; [vm_compute; reflexivity|]). vm_compute. reflexivity.
  - intro F. destruct (F 0) as (k & E); [lia|].
    assert (H : forall k c, In c [0;1;2;3] -> In (up (par (fst s_cyc)) k c) [0;1;2;3]).
    { clear. induction k as [|k IH]; intros c Hc; [exact Hc|]. cbn [up]. apply IH. apply cyc_ring. exact Hc. }
    destruct (cyc_ring _ (H k 0 ltac:(cbn; auto))) as (_ & _ & N & _). congruence.
  - intros s' c S Hc. destruct (T s' S c Hc) as (P & E & N). split; auto. split; auto.
    exists 4. split; [lia|]. cbn [up].
    assert (Q : par (fst s') 0 = 1 /\ par (fst s') 1 = 2 /\ par (fst s') 2 = 3 /\ par (fst s') 3 = 0).
    { repeat split; [destruct (T s' S 0)|destruct (T s' S 1)|destruct (T s' S 2)|destruct (T s' S 3)]; cbn; auto; rewrite H; vm_compute; reflexivity. }
    destruct Q as (Q0 & Q1 & Q2 & Q3). destruct Hc as [<-|[<-|[<-|[<-|[]]]]]; rewrite ?Q0, ?Q1, ?Q2, ?Q3, ?Q0, ?Q1, ?Q2, ?Q3; reflexivity.
Qed.

(** Refuted: "registerContraction returns".  A later registration that reaches the
    cycle never leaves its final cycle check, whatever the other threads do, and
    keeps the two nodes locked. *)
Theorem C84_refuted_hang : exists n mx w0 s t z w, run n mx w0 s /\
  forall s', steps n mx s s' -> lk (fst s') z = Some t /\ lk (fst s') w = Some t /\
    exists x, snd s' t = RFin z w x \/ snd s' t = RFinC z w x.
Proof.
  exists 7, 100, (fun _ => 1), s_hang, 5, 6, 1. split; [exact hang_run|]. intros s' S.
  assert (R' : run 7 100 (fun _ => 1) s') by (eapply steps_run; [exact hang_run|exact S]).
  assert (H : exists x, In x [0;1;2;3] /\ (snd s' 5 = RFin 6 1 x \/ snd s' 5 = RFinC 6 1 x)).
  { clear R'. induction S as [|s1 s2 S IH S']; [exists 1; split; [cbn; auto|left; vm_compute; reflexivity]|].
    destruct IH as (x & Hx & Ex).
    destruct (ring_steps 7 100 (fun _ => 1) _ _ _ hang_run wlim hang_ring S) as (A & _).
    destruct (A x Hx) as (_ & _ & N & Ip & _).
    destruct S' as [g pcs t u v E Lu Lv Nuv|g pcs t g' p X|g pcs Q]; cbn [fst snd] in *.
    - exists x. split; auto. rewrite upd_other; [exact Ex|]. intros <-. destruct Ex; congruence.
    - destruct (Nat.eq_dec t 5) as [->|Nt]; [|exists x; split; auto; rewrite upd_other; auto].
      rewrite upd_same. destruct Ex as [Ex|Ex]; rewrite Ex in X; cbn [exec] in X; cbv zeta in X.
      + exists (par g x). split; auto. right.
        destruct (par g x =? 6) eqn:Q; [eqb; exfalso; cbn in Ip; lia|]. congruence.
      + exists x. split; auto. left. rewrite (proj2 (Nat.eqb_neq _ _) N) in X. congruence.
    - exists x. split; auto. }
  destruct H as (x & Hx & Ex). pose proof (i_lk _ _ _ _ (run_inv _ _ _ _ R')) as L. unfold holder_ok in L. split; [|split; [|eauto]]; apply L; destruct Ex as [->| ->]; cbn; auto.
Qed.

(** ** Example: three threads, serialised final checks *)
Definition okc (K : nat) (s : St) : bool := length (filter (fun t => committing (snd s t)) (seq 0 K)) <=? 1.

Lemma okc_sound K s : (forall t, K <= t -> snd s t = Idle) -> okc K s = true -> one_committing s.
Proof.
  intros H O t1 t2 A B. unfold okc in O. eqb.
  assert (Hin : forall t, committing (snd s t) = true -> In t (filter (fun t => committing (snd s t)) (seq 0 K))).
  { intros t C. apply filter_In. split; auto. apply in_seq. destruct (Nat.lt_ge_cases t K); [lia|]. rewrite (H t) in C by lia. discriminate. }
  apply Hin in A, B. destruct (filter _ _) as [|a [|b l]]; [destruct A| |cbn in O; lia].
  destruct A as [<-|[]]; destruct B as [<-|[]]. reflexivity.
Qed.

Fixpoint goc (K mx t k : nat) (s : St) : option St :=
  match k with
  | O => Some s
  | S j => match exec mx t (fst s) (snd s t) with
           | Some (g', p') => let s' := (g', upd (snd s) t p') in if okc K s' then goc K mx t j s' else None
           | None => Some s
           end
  end.

Definition doactc (K n mx : nat) (a : act) (s : St) : option St :=
  match a with
  | Go t k => if t <? K then goc K mx t k s else None
  | Call t u v =>
      match snd s t with
      | Idle => if (u <? n) && (v <? n) && negb (u =? v) && (t <? K) && okc K (fst s, upd (snd s) t (RAcq u v))
                then Some (fst s, upd (snd s) t (RAcq u v)) else None
      | _ => None
      end
  end.

Fixpoint schedc (K n mx : nat) (l : list act) (s : St) : option St :=
  match l with
  | [] => Some s
  | a :: l' => match doactc K n mx a s with Some s' => schedc K n mx l' s' | None => None end
  end.

Lemma schedc_run K n mx w0 l s s' : srun n mx w0 s -> (forall t, K <= t -> snd s t = Idle) ->
  schedc K n mx l s = Some s' -> srun n mx w0 s'.
Proof.
  assert (Idl : forall pcs t p, t < K -> (forall t', K <= t' -> pcs t' = Idle) -> forall t', K <= t' -> upd pcs t p t' = Idle).
  { intros pcs t p L H t' L'. rewrite upd_other by lia. auto. }
  assert (Hg : forall t k s s', t < K -> srun n mx w0 s -> (forall t, K <= t -> snd s t = Idle) -> goc K mx t k s = Some s' ->
     srun n mx w0 s' /\ forall t, K <= t -> snd s' t = Idle).
  { clear s s'. induction k as [|k IH]; intros (g, pcs) s' L R H E; cbn in E; [injection E as <-; auto|].
    destruct (exec mx t g (pcs t)) as [(g', p')|] eqn:X; [|injection E as <-; auto].
    cbv zeta in E. destruct (okc K (g', upd pcs t p')) eqn:O; [|discriminate]. apply (IH (g', upd pcs t p') s'); auto.
    - eapply srun_S; [exact R|now constructor|]. apply (okc_sound K); auto. cbn. apply Idl; auto.
    - cbn. apply Idl; auto. }
  revert s. induction l as [|a l IH]; intros s R H E; cbn [schedc] in E; [injection E as <-; auto|].
  destruct (doactc K n mx a s) as [s1|] eqn:D; [|discriminate].
  assert (srun n mx w0 s1 /\ forall t, K <= t -> snd s1 t = Idle) as (R1 & H1); [|eapply IH; eauto].
  destruct a as [t u v|t k]; cbn [doactc] in D.
  - destruct s as (g, pcs). cbn [fst snd] in *. destruct (pcs t) eqn:Ep; try discriminate.
    destruct (_ && _ && _ && _ && _) eqn:B in D; [|discriminate]. eqb. injection D as <-.
    split; [|apply Idl; auto]. eapply srun_S; [exact R|now constructor|]. apply (okc_sound K); auto. cbn. apply Idl; auto.
  - destruct (t <? K) eqn:L; [|discriminate]. eqb. eapply Hg; eauto.
Qed.

Definition acts_ex : list act :=
  [Call 1 1 2; Go 1 14; Call 2 0 1; Go 2 50; Call 2 2 3; Go 2 50; Go 1 50; Call 3 0 4; Go 3 50].
Definition s_ex : St := match schedc 4 5 4 acts_ex (g0 (fun _ => 1), fun _ => Idle) with Some s => s | None => (g0 (fun _ => 1), fun _ => Idle) end.

Theorem C84_example :
  srun 5 4 (fun _ => 1) s_ex /\ (forall t, snd s_ex t = Idle) /\
  log (fst s_ex) = [(1, 3); (1, 2); (0, 1)] /\ map (par (fst s_ex)) (seq 0 5) = [0; 0; 1; 1; 4] /\
  map (wt (fst s_ex)) (seq 0 5) = [4; 3; 1; 1; 1] /\ map (iv (fst s_ex)) (seq 0 5) = [None; Some (2, 3); Some (1, 2); Some (0, 1); None].
Proof.
  split; [|repeat split; try (vm_compute; reflexivity)].
  - destruct (schedc 4 5 4 acts_ex (g0 (fun _ => 1), fun _ => Idle)) as [s|] eqn:E; [|exfalso; vm_compute in E; discriminate E].
    assert (Q : s_ex = s) by (unfold s_ex; rewrite E; reflexivity). rewrite Q.
    eapply schedc_run; [apply srun_0| |exact E]. auto.
  - intro t. do 4 (destruct t as [|t]; [vm_compute; reflexivity|]). vm_compute. reflexivity.
Qed.
