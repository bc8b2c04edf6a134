(** GainCompProps.v - property C71: the gain computation. *)
From Verif Require Import Base Spec SpecLemmas PHG PHGProofs Objective GainCache GainCacheProofs Metrics PropsA WfCheck DetLPProps AfterburnerProps GainComp GainCompThms.

(** Block [b] can take node [u]: it is another block and the move keeps its limit, unless limits are ignored. *)
Definition can_take (H : hypergraph) (P : partition) (k : nat) (L : nat -> Z) (allow : bool) (u b : nat) : Prop :=
  (b < k)%nat /\ P u <> Some b /\ (allow = true \/ block_weight H P b + nw H u <= L b).
Lemma can_take_feasible H s L allow u from b : started H s -> part s u = Some from ->
  can_take H (part s) (pk s) L allow u b <-> feasible H s u from L allow b.
Proof.
  intros (WF & C & _) Pu. unfold can_take, feasible, partWeight. rewrite Pu. split; intros (A & B & D).
  - split; [exact A|]. split; [congruence|]. rewrite (c_wt H s C b A). exact D.
  - split; [exact A|]. split; [congruence|]. rewrite <- (c_wt H s C b A). exact D.
Qed.

(** C71: a proposed move goes to another block that can take the node, and its gain is exactly the change of the objective. *)
Theorem C71_gain_exact : forall H o s L no_random rebalance non_adjacent allow coin rnd u from to g, started H s -> In u (nodes H) -> part s u = Some from ->
  computeMaxGainMove H o s L no_random rebalance non_adjacent allow coin rnd from u = (to, g) -> to <> from ->
  can_take H (part s) (pk s) L allow u to /\ g = obj_spec o H (move (part s) u to) - obj_spec o H (part s).
Proof.
  intros H o s L nr rb na al coin rnd u from to g ST Hu Pu E Ne. destruct (cmg_ok H o s ST u from Hu Pu L nr rb na al coin rnd) as [[[A _]|(A & B & _)] _]; rewrite E in *; cbn [fst snd] in *; [congruence|].
  split; [apply (can_take_feasible H s L al u from to ST Pu); exact A|exact B].
Qed.
(** Whatever the coins: no block that can take the node is better than the proposed one; without proposal nothing improves. *)
Theorem C71_best_block : forall H o s L no_random non_adjacent allow coin rnd u from to g, started H s -> (forall e, In e (edges H) -> 0 <= ew H e) ->
  In u (nodes H) -> part s u = Some from ->
  computeMaxGainMove H o s L no_random false non_adjacent allow coin rnd from u = (to, g) ->
  obj_spec o H (move (part s) u to) <= obj_spec o H (part s) /\
  forall b, can_take H (part s) (pk s) L allow u b -> obj_spec o H (move (part s) u to) <= obj_spec o H (move (part s) u b).
Proof.
  intros H o s L nr na al coin rnd u from to g ST W Hu Pu E. destruct (cmg_ok H o s ST u from Hu Pu L nr false na al coin rnd) as [A B]. rewrite E in *. cbn [fst snd] in *.
  assert (X : g <= 0 /\ g = obj_spec o H (move (part s) u to) - obj_spec o H (part s)).
  { destruct A as [[-> ->]|(_ & A & A')]; [|split; [exact A'|exact A]]. split; [cbn; lia|]. cbn [g_init].
    assert (Em : obj_spec o H (move (part s) u from) = obj_spec o H (part s)).
    { rewrite !AfterburnerThms.obj_sum. apply sumZ_ext. intros e _. apply AfterburnerThms.edge_ext. intros v _. unfold move, upd. destruct (Nat.eqb_spec v u) as [->|]; congruence. }
    unfold g_init. lia. }
  destruct X as [X1 X2]. split; [lia|]. intros b Fb. apply (can_take_feasible H s L al u from b ST Pu) in Fb. specialize (B W (or_introl eq_refl) b Fb). unfold change in B. lia.
Qed.
(** With [rebalance] and non-adjacent blocks a block is found whenever one can take the node, and it is a best one. *)
Theorem C71_rebalance_move : forall H o s L no_random allow coin rnd u from to g, started H s -> (forall e, In e (edges H) -> 0 <= ew H e) ->
  In u (nodes H) -> part s u = Some from ->
  (forall b, can_take H (part s) (pk s) L allow u b -> obj_spec o H (move (part s) u b) - obj_spec o H (part s) < MAXG) ->
  computeMaxGainMove H o s L no_random true true allow coin rnd from u = (to, g) ->
  (to = from <-> forall b, ~ can_take H (part s) (pk s) L allow u b) /\
  (forall b, can_take H (part s) (pk s) L allow u b -> obj_spec o H (move (part s) u to) <= obj_spec o H (move (part s) u b)).
Proof.
  intros H o s L nr al coin rnd u from to g ST W Hu Pu Bd E. destruct (cmg_ok H o s ST u from Hu Pu L nr true true al coin rnd) as [A B]. rewrite E in *. cbn [fst snd] in *. specialize (B W (or_intror eq_refl)).
  pose proof (fun b => can_take_feasible H s L al u from b ST Pu) as CF. unfold change in *.
  assert (NT : to = from -> forall b, ~ can_take H (part s) (pk s) L al u b).
  { intros -> b Cb. pose proof (Bd b Cb). apply CF in Cb. specialize (B b Cb). destruct A as [[_ ->]|((_ & X & _) & _)]; [cbn [g_init] in B; unfold g_init in B; lia|congruence]. }
  split; [split; [exact NT|]|].
  - intros No. destruct A as [[-> _]|(X & _)]; [reflexivity|]. exfalso. apply (No to). apply CF. exact X.
  - intros b Cb. destruct A as [[A _]|(_ & -> & _)]; [exfalso; exact (NT A b Cb)|]. apply CF in Cb. specialize (B b Cb). lia.
Qed.

(** Example (hypergraph of C68): the proposal depends on the coin, never its quality. *)
Definition gc_coin (b : bool) : nat -> bool := fun _ => b.
Definition gc_res (o : objective) (u from : nat) (b : bool) : nat * Z := computeMaxGainMove aH o (state_of aH 3 aP) (fun _ => 10) false false false false (gc_coin b) 0 from u.
Definition gc_reb (o : objective) (u from : nat) (n : nat) : nat * Z := computeMaxGainMove aH o (state_of aH 3 aP) (fun _ => 10) false true true false (gc_coin true) n from u.
Definition gcP : partition := fun v => nth v [Some 1; Some 0; Some 1; Some 1]%nat None.
Definition gc_better (o : objective) (L : Z) : nat * Z := computeMaxGainMove aH o (state_of aH 3 gcP) (fun _ => L) false false false false (gc_coin false) 0 1 0.
Lemma gc_started P : (forall v, In v (nodes aH) -> exists b, P v = Some b /\ (b < 3)%nat) -> (forall v b, P v = Some b -> (b < 3)%nat) -> started aH (state_of aH 3 P).
Proof.
  intros A B. apply state_of_started; [destruct a_started as [WF _]; exact WF|exact B|exact A].
Qed.
Theorem C71_example : started aH (state_of aH 3 gcP) /\ started aH (state_of aH 3 aP) /\
  gc_better Okm1 10 = (0%nat, -1) /\ gc_better Ocut 10 = (0%nat, -1) /\ gc_better Osoed 10 = (0%nat, -2) /\ gc_better Okm1 1 = (1%nat, 0) /\
  gc_res Okm1 2 1 true = (0%nat, 0) /\ gc_res Okm1 2 1 false = (1%nat, 0) /\ gc_reb Ocut 2 1 0 = (0%nat, 0) /\ gc_reb Ocut 2 1 1 = (2%nat, 0).
Proof.
  split; [|split].
  1,2: apply gc_started; [intros v Hv|intros v b]; unfold gcP, aP; [cbn in Hv; repeat (destruct Hv as [<-|Hv]; [cbn; eexists; split; [reflexivity|lia]|]); destruct Hv|do 4 (destruct v as [|v]; [cbn; intros E; inversion E; lia|]); cbn; destruct v; discriminate].
  repeat split; vm_compute; reflexivity.
Qed.
