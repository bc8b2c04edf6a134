(** The local search for the one-to-one mapping (C90). *)
From Coq Require Import List Arith Lia Bool ZArith.
From Verif Require Import Base Spec KLMap.
Import ListNotations.

Section Proofs.
Variables (H : hypergraph) (dist : (nat -> bool) -> Z).
Variable fixed : nat -> bool.
Variables (individual : bool) (L : nat -> Z).
Hypothesis WF : wf_hg H.
Hypothesis EXT : forall s t, (forall b, s b = t b) -> dist s = dist t.
Notation cost := (mapping_cost H dist).
Notation clean ms := (forall e : nat, ms e = false).
Notation prs := (pairs H fixed individual L).
Notation stp := (step H dist).

Lemma cost_ext P Q : (forall x, P x = Q x) -> cost P = cost Q.
Proof.
  intros E. unfold mapping_cost. apply sumZ_ext. intros e _. f_equal. apply EXT. intros b. unfold cset.
  induction (pins H e) as [|x l IH]; cbn; auto. unfold in_block at 1 3. now rewrite E, IH.
Qed.
Lemma pairs_spec P u v : In (u, v) (prs P) -> In u (nodes H) /\ In v (nodes H) /\ u <> v /\ fixed u = false /\ fixed v = false /\
  (individual = true -> forall b, (P v = Some b -> nw H u <= L b) /\ (P u = Some b -> nw H v <= L b)).
Proof.
  unfold pairs. rewrite filter_In, in_prod_iff, !andb_true_iff, !negb_true_iff, Nat.ltb_lt, orb_true_iff, negb_true_iff, andb_true_iff. unfold fits.
  intros ((A & B) & (((C & D) & E) & F)). split; [auto|split; [auto|split; [lia|split; [auto|split; [auto|]]]]]. intros I b. split; intros X.
  - destruct F as [F|[F _]]; [congruence|]. rewrite X in F. now apply Z.leb_le.
  - destruct F as [F|[_ F]]; [congruence|]. rewrite X in F. now apply Z.leb_le.
Qed.
Lemma swap_ext P Q u v : (forall x, P x = Q x) -> forall x, vertex_swap P u v x = vertex_swap Q u v x.
Proof. intros E x. unfold vertex_swap, upd. now rewrite !E. Qed.
Lemma swap_twice P u v x : u <> v -> vertex_swap (vertex_swap P u v) u v x = P x.
Proof.
  intros N. rewrite !swap_at by auto. rewrite (proj2 (Nat.eqb_neq v u)), !Nat.eqb_refl by auto.
  destruct (Nat.eqb_spec x u) as [->|]; auto. destruct (Nat.eqb_spec x v) as [->|]; auto.
Qed.
Lemma swap_121 P u v : In u (nodes H) -> In v (nodes H) -> u <> v -> one_to_one H P -> one_to_one H (vertex_swap P u v).
Proof.
  intros Hu Hv N (T & I). split.
  - intros x Hx. rewrite swap_at by auto. destruct (x =? u)%nat; [auto|]. destruct (x =? v)%nat; auto.
  - intros x y Hx Hy. rewrite !swap_at by auto.
    destruct (Nat.eqb_spec x u) as [->|X1], (Nat.eqb_spec y u) as [->|Y1]; auto.
    + destruct (Nat.eqb_spec y v) as [->|Y2]; intros E; [apply I in E; auto; congruence|apply I in E; auto; congruence].
    + destruct (Nat.eqb_spec x v) as [->|X2]; intros E; [apply I in E; auto; congruence|apply I in E; auto; congruence].
    + destruct (Nat.eqb_spec x v) as [->|X2], (Nat.eqb_spec y v) as [->|Y2]; intros E; auto; apply I in E; auto; congruence.
Qed.

(** ** Specification of a result *)
Definition used (P : partition) (b : nat) : Prop := exists x, In x (nodes H) /\ P x = Some b.
Record improves (P Q : partition) : Prop := {
  i_one : one_to_one H Q;
  i_cost : cost Q <= cost P;
  i_used : forall b, used Q b <-> used P b;
  i_fixed : forall x, fixed x = true -> Q x = P x;
  i_out : forall x, ~ In x (nodes H) -> Q x = P x;
  i_weight : individual = true -> forall x b, In x (nodes H) -> Q x = Some b -> P x = Some b \/ nw H x <= L b
}.

(** *** The swaps of a pass *)
Inductive chain (P0 : partition) : list elem -> partition -> Prop :=
| ch_nil : chain P0 [] P0
| ch_cons g u v sw P : chain P0 sw P -> In (u, v) (prs P0) -> P u = P0 u -> P v = P0 v -> cost (vertex_swap P u v) = cost P - g ->
    chain P0 ((g, (u, v)) :: sw) (vertex_swap P u v).
Lemma chain_det P0 sw : forall P Q, chain P0 sw P -> chain P0 sw Q -> P = Q.
Proof.
  induction sw as [|[g [u v]] sw IH]; intros P Q A B; inversion A as [|? ? ? ? P1 A']; subst; inversion B as [|? ? ? ? P2 B']; subst; auto.
  now rewrite (IH P1 P2 A' B').
Qed.
Lemma chain_facts P0 sw P : one_to_one H P0 -> chain P0 sw P ->
  one_to_one H P /\ (forall b, used P b <-> used P0 b) /\ (forall x, fixed x = true -> P x = P0 x) /\ (forall x, ~ In x (nodes H) -> P x = P0 x) /\
  (individual = true -> forall x b, In x (nodes H) -> P x = Some b -> P0 x = Some b \/ nw H x <= L b).
Proof.
  intros O C. induction C as [|g u v sw P C IH Hp Eu Ev _].
  - repeat split; auto; apply O.
  - destruct IH as (A & B & F & X & W). destruct (pairs_spec _ _ _ Hp) as (Hu & Hv & N & Fu & Fv & Wt).
    split; [now apply swap_121|]. split; [|split; [|split]].
    + intros b. rewrite <- B. unfold used. split; intros (x & Hx & E).
      * rewrite swap_at in E by auto. destruct (Nat.eqb_spec x u) as [->|X1]; [exists v; auto|]. destruct (Nat.eqb_spec x v) as [->|X2]; [exists u; auto|exists x; auto].
      * destruct (Nat.eq_dec x u) as [->|X1]; [exists v|destruct (Nat.eq_dec x v) as [->|X2]; [exists u|exists x]]; (split; [auto|]); rewrite swap_at by auto.
        -- now rewrite (proj2 (Nat.eqb_neq v u)), Nat.eqb_refl by auto.
        -- now rewrite Nat.eqb_refl.
        -- now rewrite (proj2 (Nat.eqb_neq x u)), (proj2 (Nat.eqb_neq x v)) by auto.
    + intros x Fx. rewrite swap_at by auto. destruct (Nat.eqb_spec x u) as [->|X1]; [congruence|]. destruct (Nat.eqb_spec x v) as [->|X2]; [congruence|auto].
    + intros x Fx. rewrite swap_at by auto. destruct (Nat.eqb_spec x u) as [->|X1]; [contradiction|]. destruct (Nat.eqb_spec x v) as [->|X2]; [contradiction|auto].
    + intros I x b Hx. rewrite swap_at by auto. destruct (Wt I b) as (W1 & W2). destruct (Nat.eqb_spec x u) as [->|X1].
      * intros E. right. apply W1. congruence.
      * destruct (Nat.eqb_spec x v) as [->|X2]; [|apply W; auto]. intros E. right. apply W2. congruence.
Qed.
Lemma rollback_chain P0 n : forall sw P Q o, chain P0 sw P -> (forall x, Q x = P x) -> o = cost P -> (n <= length sw)%nat ->
  exists P', chain P0 (skipn n sw) P' /\ (forall x, fst (rollback n sw Q o) x = P' x) /\ snd (rollback n sw Q o) = cost P'.
Proof.
  induction n as [|n IH]; intros sw P Q o C E Eo Ln; [exists P; cbn; auto|].
  destruct sw as [|[g [u v]] sw]; [cbn in Ln; lia|]. cbn [rollback skipn]. inversion C as [|? ? ? ? P1 C1 Hp _ _ G]; subst.
  destruct (pairs_spec _ _ _ Hp) as (_ & _ & N & _). apply (IH sw P1); auto.
  - intros x. rewrite (swap_ext _ _ u v E). now apply swap_twice.
  - lia.
  - cbn in Ln. lia.
Qed.

(** *** Invariant of a pass *)
Record inv (P0 : partition) (s : state) : Prop := {
  v_chain : chain P0 (s_swaps s) (s_P s);
  v_obj : s_obj s = cost (s_P s);
  v_idx : (s_idx s <= length (s_swaps s))%nat;
  v_best : exists Pb, chain P0 (skipn (length (s_swaps s) - s_idx s) (s_swaps s)) Pb /\ cost Pb = s_best s;
  v_le : s_best s <= cost P0;
  v_moved : forall x, s_moved s x = false -> s_P s x = P0 x;
  v_pq : forall g p, In (g, p) (s_pq s) -> In p (prs P0);
  v_clean : clean (s_marks s)
}.
Lemma inv_swap P0 s u v : one_to_one H P0 -> inv P0 s -> In (u, v) (prs P0) ->
  cost (vertex_swap (s_P s) u v) = cost (s_P s) - fst (swap_gain H dist (s_P s) u v (s_marks s)) /\ clean (snd (swap_gain H dist (s_P s) u v (s_marks s))).
Proof.
  intros O I Hp. destruct (pairs_spec _ _ _ Hp) as (Hu & Hv & N & _). destruct (chain_facts P0 _ _ O (v_chain _ _ I)) as (A & _).
  apply swap_cost; auto. apply (v_clean _ _ I).
Qed.
Lemma inv_step P0 s t : one_to_one H P0 -> inv P0 s -> stp s t -> inv P0 t.
Proof.
  intros O I S. destruct S as [P o i b sw mv q1 q2 g u v ms M|P o i b sw mv q1 q2 g u v ms g' ms' M E NE|P o i b sw mv q1 q2 g u v ms ms' M E].
  - destruct I as [I1 I2 I3 I4 I5 I6 I7 I8]. cbn [s_P s_obj s_idx s_best s_swaps s_moved s_pq s_marks] in *. constructor; cbn [s_P s_obj s_idx s_best s_swaps s_moved s_pq s_marks]; auto.
    intros h p Hh. apply (I7 h). apply in_app_iff in Hh. apply in_app_iff. cbn. tauto.
  - assert (Hp : In (u, v) (prs P0)) by (apply (v_pq _ _ I g); cbn; apply in_app_iff; right; left; reflexivity).
    destruct (inv_swap P0 _ u v O I Hp) as (_ & Cl). cbn [s_P s_marks] in Cl. rewrite E in Cl. cbn [snd] in Cl.
    destruct I as [I1 I2 I3 I4 I5 I6 I7 I8]. cbn [s_P s_obj s_idx s_best s_swaps s_moved s_pq s_marks] in *. constructor; cbn [s_P s_obj s_idx s_best s_swaps s_moved s_pq s_marks]; auto.
    intros h p [Hh|Hh]; [injection Hh as <- <-; exact Hp|]. apply (I7 h). apply in_app_iff in Hh. apply in_app_iff. cbn. tauto.
  - assert (Hp : In (u, v) (prs P0)) by (apply (v_pq _ _ I g); cbn; apply in_app_iff; right; left; reflexivity).
    destruct (inv_swap P0 _ u v O I Hp) as (G & Cl). cbn [s_P s_marks] in G, Cl. rewrite E in G, Cl. cbn [fst snd] in G, Cl.
    destruct I as [I1 I2 I3 I4 I5 I6 I7 I8]. cbn [s_P s_obj s_idx s_best s_swaps s_moved s_pq s_marks] in *. apply orb_false_iff in M. destruct M as (Mu & Mv).
    destruct (pairs_spec _ _ _ Hp) as (Hu & Hv & N & _).
    assert (C' : chain P0 ((g, (u, v)) :: sw) (vertex_swap P u v)) by (constructor; auto).
    constructor; cbn [s_P s_obj s_idx s_best s_swaps s_moved s_pq s_marks]; auto.
    + lia.
    + cbn [length]. destruct (o - g <=? b); lia.
    + cbn [length]. destruct (o - g <=? b) eqn:X.
      * exists (vertex_swap P u v). replace (S (length sw) - S (length sw))%nat with 0%nat by lia. cbn [skipn]. split; auto. lia.
      * destruct I4 as (Pb & A & B). exists Pb. replace (S (length sw) - i)%nat with (S (length sw - i)) by lia. cbn [skipn]. auto.
    + destruct (o - g <=? b) eqn:X; auto. apply Z.leb_le in X. lia.
    + intros x. unfold upd. destruct (x =? v)%nat eqn:Xv; [discriminate|]. destruct (x =? u)%nat eqn:Xu; [discriminate|]. intros Mx. rewrite swap_at by auto. rewrite Xu, Xv. auto.
    + intros h p Hh. apply (I7 h). apply in_app_iff in Hh. apply in_app_iff. cbn. tauto.
Qed.
Lemma inv_steps P0 s t : one_to_one H P0 -> inv P0 s -> steps H dist s t -> inv P0 t.
Proof. intros O I S. revert I. induction S; auto. intros I. apply IHS. eapply inv_step; eauto. Qed.
Lemma init_pq_spec P ms : one_to_one H P -> clean ms -> (forall g p, In (g, p) (fst (init_pq H dist fixed individual L P ms)) -> In p (prs P)) /\ clean (snd (init_pq H dist fixed individual L P ms)).
Proof.
  intros O C. unfold init_pq. assert (G : forall l q ms, (forall p, In p l -> In p (prs P)) -> clean ms -> (forall g p, In (g, p) q -> In p (prs P)) ->
    let r := fold_left (fun (st : list elem * (nat -> bool)) (p : nat * nat) => let '(q, ms) := st in let '(g, ms') := swap_gain H dist P (fst p) (snd p) ms in ((g, p) :: q, ms')) l (q, ms) in
    (forall g p, In (g, p) (fst r) -> In p (prs P)) /\ clean (snd r)).
  { induction l as [|[u v] l IH]; intros q ms0 Hl C0 Hq; cbn [fold_left]; [auto|]. cbn [fst snd].
    destruct (pairs_spec _ _ _ (Hl _ (or_introl eq_refl))) as (Hu & Hv & N & _).
    destruct (swap_cost H dist WF EXT P u v ms0 O Hu Hv N C0) as (_ & Cl). destruct (swap_gain H dist P u v ms0) as [g ms'] eqn:E. apply IH; auto.
    - intros p Hp. apply Hl. right; auto.
    - intros h p [Hh|Hh]; [injection Hh as <- <-; apply Hl; left; reflexivity|exact (Hq h p Hh)]. }
  apply G; auto. intros g p [].
Qed.
Lemma inv_init P ms q ms1 : one_to_one H P -> clean ms -> init_pq H dist fixed individual L P ms = (q, ms1) -> inv P (mkS P (cost P) 0 (cost P) [] (fun _ => false) q ms1).
Proof.
  intros O C E. destruct (init_pq_spec P ms O C) as (A & B). rewrite E in A, B. constructor; cbn [s_P s_obj s_idx s_best s_swaps s_moved s_pq s_marks]; auto; try lia.
  - constructor.
  - exists P. split; [constructor|reflexivity].
Qed.
Lemma improves_ext P Q R : (forall x, Q x = R x) -> improves P R -> improves P Q.
Proof.
  intros E [A B C D F G]. constructor.
  - destruct A as (T & I). split; [intros v Hv; rewrite E; auto|intros u v Hu Hv X; rewrite !E in X; auto].
  - rewrite (cost_ext Q R E). exact B.
  - intros b. rewrite <- C. unfold used. split; intros (x & Hx & X); exists x; split; auto; [rewrite <- E|rewrite E]; auto.
  - intros x X. rewrite E. auto.
  - intros x X. rewrite E. auto.
  - intros I x b Hx X. rewrite E in X. auto.
Qed.
Lemma improves_trans P Q R : improves P Q -> improves Q R -> improves P R.
Proof.
  intros [A B C D F G] [A' B' C' D' F' G']. constructor; auto.
  - lia.
  - intros b. now rewrite C', C.
  - intros x X. rewrite D', D; auto.
  - intros x X. rewrite F', F; auto.
  - intros I x b Hx X. destruct (G' I x b Hx X); auto.
Qed.
Lemma pass_spec P ms P' o' ms' i : one_to_one H P -> clean ms -> pass H dist fixed individual L P (cost P) ms P' o' ms' i ->
  improves P P' /\ o' = cost P' /\ clean ms'.
Proof.
  intros O C R. inversion R as [q ms1 P1 o1 i1 b sw mv ms2 P2 o2 E S RB]; subst.
  pose proof (inv_steps P _ _ O (inv_init P ms q ms1 O C E) S) as I.
  destruct I as [I1 I2 I3 I4 I5 I6 I7 I8]. cbn [s_P s_obj s_idx s_best s_swaps s_moved s_pq s_marks] in *.
  destruct (rollback_chain P (length sw - i) sw P1 P1 o1 I1 (fun _ => eq_refl) I2 ltac:(lia)) as (Pr & A & B & D). rewrite RB in B, D. cbn [fst snd] in B, D.
  destruct I4 as (Pb & A' & Eb). rewrite (chain_det _ _ _ _ A' A) in Eb. destruct (chain_facts P _ _ O A) as (F1 & F2 & F3 & F4 & F5).
  assert (IM : improves P Pr) by (constructor; auto; lia).
  split; [exact (improves_ext _ _ _ B IM)|]. split; auto. rewrite D. symmetry. now apply cost_ext.
Qed.

(** ** Theorem: the result of the local search *)
(** It is one-to-one, uses the same blocks, has no larger cost, leaves fixed
    nodes where they are, and moves a node only to a block that is large enough if
    blocks have individual weights. *)
Theorem C90_local_search P R : one_to_one H P -> improve H dist fixed individual L P R -> improves P R.
Proof.
  intros O. unfold improve. assert (G : forall P o ms f R, improve_from H dist fixed individual L P o ms f R -> one_to_one H P -> o = cost P -> clean ms -> improves P R).
  { intros P0 o ms f R0 X. induction X as [P0 o ms f P' o' ms' i Ps St|P0 o ms f P' o' ms' i R0 Ps St X IH]; intros O0 -> C.
    - apply (pass_spec _ _ _ _ _ _ O0 C Ps).
    - destruct (pass_spec _ _ _ _ _ _ O0 C Ps) as (A & B & D). apply improves_trans with P'; auto. apply IH; auto. apply A. }
  intros X. eapply G; eauto.
Qed.
(** If all nodes fit into their blocks, they do so afterwards. *)
Corollary C90_weights P R : one_to_one H P -> improve H dist fixed individual L P R -> individual = true ->
  (forall x b, In x (nodes H) -> P x = Some b -> nw H x <= L b) -> forall x b, In x (nodes H) -> R x = Some b -> nw H x <= L b.
Proof. intros O X I F x b Hx E. destruct (i_weight _ _ (C90_local_search P R O X) I x b Hx E); [apply F; auto|auto]. Qed.

(** ** Theorem: the objective is tracked exactly *)
(** In every state of a pass the objective is the cost of the current mapping:
    the gains are exact (assertions 204, 213, 214). *)
Theorem C90_exact P ms q ms1 s : one_to_one H P -> clean ms -> init_pq H dist fixed individual L P ms = (q, ms1) ->
  steps H dist (mkS P (cost P) 0 (cost P) [] (fun _ => false) q ms1) s -> s_obj s = cost (s_P s) /\ one_to_one H (s_P s).
Proof.
  intros O C E S. pose proof (inv_steps P _ _ O (inv_init P ms q ms1 O C E) S) as I. split; [apply (v_obj _ _ I)|].
  apply (chain_facts P _ _ O (v_chain _ _ I)).
Qed.

(** *** Termination *)
Lemma gain_clean P u v ms ms' : one_to_one H P -> In u (nodes H) -> In v (nodes H) -> u <> v -> clean ms -> clean ms' ->
  fst (swap_gain H dist P u v ms) = fst (swap_gain H dist P u v ms').
Proof.
  intros O Hu Hv N C C'. destruct (swap_cost H dist WF EXT P u v ms O Hu Hv N C) as (A & _).
  destruct (swap_cost H dist WF EXT P u v ms' O Hu Hv N C') as (A' & _). lia.
Qed.
Definition stale (P : partition) (x : elem) : bool := negb (fst x =? fst (swap_gain H dist P (fst (snd x)) (snd (snd x)) (fun _ => false))).
Definition nstale (s : state) : nat := length (filter (stale (s_P s)) (s_pq s)).
Lemma step_progress s : s_pq s <> [] -> exists t, stp s t.
Proof.
  destruct s as [P o i b sw mv q ms]. cbn [s_pq]. intros N. destruct q as [|[g [u v]] q]; [contradiction|].
  destruct (mv u || mv v) eqn:M; [eexists; eapply (st_moved H dist P o i b sw mv [] q); exact M|].
  destruct (swap_gain H dist P u v ms) as [g' ms'] eqn:E. destruct (Z.eq_dec g g') as [->|NE].
  - eexists. eapply (st_swap H dist P o i b sw mv [] q); eauto.
  - eexists. eapply (st_stale H dist P o i b sw mv [] q); eauto.
Qed.
Lemma step_measure P0 s t : one_to_one H P0 -> inv P0 s -> stp s t ->
  (length (s_pq t) < length (s_pq s))%nat \/ (length (s_pq t) = length (s_pq s) /\ (nstale t < nstale s)%nat).
Proof.
  intros O I S. destruct S as [P o i b sw mv q1 q2 g u v ms M|P o i b sw mv q1 q2 g u v ms g' ms' M E NE|P o i b sw mv q1 q2 g u v ms ms' M E]; cbn [s_pq].
  - left. rewrite !app_length. cbn. lia.
  - right. split; [cbn; rewrite !app_length; cbn; lia|]. unfold nstale. cbn [s_pq s_P filter].
    assert (Hp : In (u, v) (prs P0)) by (apply (v_pq _ _ I g); cbn; apply in_app_iff; right; left; reflexivity).
    destruct (pairs_spec _ _ _ Hp) as (Hu & Hv & N & _). destruct (chain_facts P0 _ _ O (v_chain _ _ I)) as (O' & _). cbn [s_P] in O'.
    pose proof (gain_clean P u v ms (fun _ => false) O' Hu Hv N (v_clean _ _ I) (fun _ => eq_refl)) as G. rewrite E in G. cbn [fst] in G.
    assert (S1 : stale P (g', (u, v)) = false) by (unfold stale; cbn [fst snd]; rewrite <- G, Z.eqb_refl; reflexivity).
    assert (S2 : stale P (g, (u, v)) = true) by (unfold stale; cbn [fst snd]; rewrite <- G; now rewrite (proj2 (Z.eqb_neq g g') NE)).
    rewrite S1, !filter_app, !app_length. cbn [filter]. rewrite S2. cbn. lia.
  - left. rewrite !app_length. cbn. lia.
Qed.
Lemma step_acc P0 : one_to_one H P0 -> forall n m s, inv P0 s -> (length (s_pq s) <= n)%nat -> (nstale s <= m)%nat -> Acc (fun t s => stp s t) s.
Proof.
  intros O. induction n as [n IHn] using lt_wf_ind. induction m as [m IHm] using lt_wf_ind. intros s I Ln Lm.
  constructor. intros t S. pose proof (inv_step P0 s t O I S) as I'. destruct (step_measure P0 s t O I S) as [A|(A & B)].
  - apply (IHn (length (s_pq t)) ltac:(lia) (nstale t) t I'); lia.
  - apply (IHm (nstale t) ltac:(lia) t I'); lia.
Qed.
Lemma run_exists P0 s : one_to_one H P0 -> inv P0 s -> exists t, steps H dist s t /\ s_pq t = [].
Proof.
  intros O I. pose proof (step_acc P0 O _ _ s I (le_n _) (le_n _)) as A. revert I. induction A as [s _ IH]. intros I.
  destruct (s_pq s) as [|x q] eqn:E; [exists s; split; [constructor|exact E]|]. destruct (step_progress s ltac:(rewrite E; discriminate)) as (t & S).
  destruct (IH t S (inv_step P0 s t O I S)) as (r & R & Er). exists r. split; auto. econstructor; eauto.
Qed.

Definition outer : Type := (partition * Z * (nat -> bool) * nat)%type.
(** the next pass (one that the loop condition admits) *)
Definition next_pass (t s : outer) : Prop := let '(P, o, ms, f) := s in let '(P', o', ms', f') := t in
  exists i, pass H dist fixed individual L P o ms P' o' ms' i /\ ((0 <? i)%nat && (fruitless o o' f <=? 2)%nat) = true /\ f' = fruitless o o' f.
Hypothesis NN : (forall s, 0 <= dist s) /\ (forall e, In e (edges H) -> 0 <= ew H e).
Lemma cost_nonneg P : 0 <= cost P.
Proof. unfold mapping_cost. apply sumZ_nonneg. intros e He. apply Z.mul_nonneg_nonneg; apply NN; auto. Qed.

(** ** Theorem: the local search terminates *)
(** For every choice of the priority queue, a pass ends and only finitely many
    passes are made, and there is a result. *)
Theorem C90_terminates P : one_to_one H P ->
  (forall q ms1 s, init_pq H dist fixed individual L P (fun _ => false) = (q, ms1) ->
     steps H dist (mkS P (cost P) 0 (cost P) [] (fun _ => false) q ms1) s -> Acc (fun t s => stp s t) s) /\
  Acc next_pass (P, cost P, fun _ => false, 0%nat) /\ exists R, improve H dist fixed individual L P R.
Proof.
  intros O. split; [|].
  - intros q ms1 s E S. pose proof (inv_steps P _ _ O (inv_init P _ q ms1 O (fun _ => eq_refl) E) S) as I.
    exact (step_acc P O _ _ s I (le_n _) (le_n _)).
  - assert (A : forall n P ms f, (Z.to_nat (4 * cost P) + (3 - f) <= n)%nat -> one_to_one H P -> clean ms -> (f <= 2)%nat -> Acc next_pass (P, cost P, ms, f)).
    { induction n as [|n IH]; intros Q ms f Ln OQ C Lf; [lia|]. constructor. intros [[[P' o'] ms'] f'] (i & Ps & St & ->).
      destruct (pass_spec _ _ _ _ _ _ OQ C Ps) as (IM & -> & C'). apply andb_true_iff in St. destruct St as (_ & St). apply Nat.leb_le in St.
      apply IH; auto; [|apply IM]. pose proof (i_cost _ _ IM) as LC. pose proof (cost_nonneg P') as NP. unfold fruitless in *.
      destruct (Z.eqb_spec (cost P') (cost Q)) as [E|NE]; [rewrite E; lia|lia]. }
    pose proof (A _ P (fun _ => false) 0%nat (le_n _) O (fun _ => eq_refl) ltac:(lia)) as AC. split; auto. unfold improve.
    assert (G : forall s, Acc next_pass s -> let '(P, o, ms, f) := s in one_to_one H P -> o = cost P -> clean ms -> exists R, improve_from H dist fixed individual L P o ms f R).
    { intros s X. induction X as [[[[Q o] ms] f] _ IH]. intros OQ -> C.
      destruct (init_pq H dist fixed individual L Q ms) as [q ms1] eqn:E. destruct (run_exists Q _ OQ (inv_init Q ms q ms1 OQ C E)) as ([P1 o1 i b sw mv q' ms'] & S & E'). cbn [s_pq] in E'. subst q'.
      destruct (rollback (length sw - i) sw P1 o1) as [P2 o2] eqn:RB.
      assert (Ps : pass H dist fixed individual L Q (cost Q) ms P2 o2 ms' i) by (eapply pass_run; eauto).
      destruct (pass_spec _ _ _ _ _ _ OQ C Ps) as (IM & Eo & C').
      destruct ((0 <? i)%nat && (fruitless (cost Q) o2 f <=? 2)%nat) eqn:St.
      - destruct (IH (P2, o2, ms', fruitless (cost Q) o2 f)) as (R & X); auto; [exists i; auto|apply IM|]. exists R. eapply im_next; eauto.
      - exists P2. eapply im_last; eauto. }
    apply (G _ AC); auto.
Qed.
End Proofs.
