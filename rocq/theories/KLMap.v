(** One-to-one mapping of the blocks of a partition to the nodes of a target
    graph: the local search.

    /repo/mt-kahypar/partition/mapping/kerninghan_lin.cpp:38-226.  [H] is the
    communication hypergraph; in a one-to-one mapping every node of it has its
    own block of the target graph.

    Simplifications: [dist] is the weight that the target graph stores for a set of
    blocks (target_graph.h; Steiner trees, see C50), a function of the bits of the
    set; integers are unbounded; hyperedge ids are unique ids (hypergraphs).  The
    priority queue may pop any of its elements (an over-approximation). *)
From Coq Require Import List Arith Lia Bool ZArith.
From Verif Require Import Base Spec.
Import ListNotations.

(** ** Specification *)
(** the blocks that hyperedge [e] connects *)
Definition cset (H : hypergraph) (P : partition) (e : nat) (b : nat) : bool := existsb (in_block P b) (pins H e).
(** the Steiner tree metric *)
Definition mapping_cost (H : hypergraph) (dist : (nat -> bool) -> Z) (P : partition) : Z := sumZ (fun e => ew H e * dist (cset H P e)) (edges H).
Definition one_to_one (H : hypergraph) (P : partition) : Prop :=
  (forall v, In v (nodes H) -> P v <> None) /\ (forall u v, In u (nodes H) -> In v (nodes H) -> P u = P v -> u = v).

Section Model.
Variables (H : hypergraph) (dist : (nat -> bool) -> Z).
Variable fixed : nat -> bool.
(** use_individual_part_weights; max_part_weights *)
Variables (individual : bool) (L : nat -> Z).

(** 38-47: two moves; changeNodePart without a weight limit succeeds *)
Definition vertex_swap (P : partition) (u v : nat) : partition := upd (upd P u (P v)) v (P u).
(** target_graph.h:182-195 *)
Definition exchange (s : nat -> bool) (removed added : nat) : nat -> bool := upd (upd s removed false) added true.
(** 49-62 *)
Definition edge_gain (P : partition) (e removed added : nat) : Z := (dist (cset H P e) - dist (exchange (cset H P e) removed added)) * ew H e.
(** 80-82 *)
Definition mark (ms : nat -> bool) (l : list nat) : nat -> bool := fold_left (fun (ms : nat -> bool) (e : nat) => upd ms e true) l ms.
(** 84-95 *)
Definition loop_v (P : partition) (bu bv : nat) (l : list nat) (st : Z * (nat -> bool)) : Z * (nat -> bool) :=
  fold_left (fun (st : Z * (nat -> bool)) (e : nat) => let '(g, ms) := st in if ms e then (g, upd ms e false) else (g + edge_gain P e bv bu, ms)) l st.
(** 97-106 *)
Definition loop_u (P : partition) (bu bv : nat) (l : list nat) (st : Z * (nat -> bool)) : Z * (nat -> bool) :=
  fold_left (fun (st : Z * (nat -> bool)) (e : nat) => let '(g, ms) := st in if ms e then (g + edge_gain P e bu bv, upd ms e false) else (g, ms)) l st.
(** 66-109; the marks are kept between the calls *)
Definition swap_gain (P : partition) (u v : nat) (ms : nat -> bool) : Z * (nat -> bool) :=
  match P u, P v with
  | Some bu, Some bv => loop_u P bu bv (inc H u) (loop_v P bu bv (inc H v) (0, mark ms (inc H u)))
  | _, _ => (0, ms)
  end.

Definition elem : Type := (Z * (nat * nat))%type.

(** 146-162: the priority queue of a pass *)
Definition fits (P : partition) (x y : nat) : bool := match P y with Some b => nw H x <=? L b | None => false end.
Definition pairs (P : partition) : list (nat * nat) :=
  filter (fun p => let '(u, v) := p in negb (fixed u) && negb (fixed v) && (u <? v)%nat && (negb individual || (fits P u v && fits P v u)))
         (list_prod (nodes H) (nodes H)).
Definition init_pq (P : partition) (ms : nat -> bool) : list elem * (nat -> bool) :=
  fold_left (fun (st : list elem * (nat -> bool)) (p : nat * nat) => let '(q, ms) := st in let '(g, ms') := swap_gain P (fst p) (snd p) ms in ((g, p) :: q, ms')) (pairs P) ([], ms).

(** 164-205 *)
Record state := mkS {
  s_P : partition; s_obj : Z; s_idx : nat; s_best : Z;
  s_swaps : list elem; (* performed_swaps, last first *)
  s_moved : nat -> bool; s_pq : list elem; s_marks : nat -> bool }.
Inductive step : state -> state -> Prop :=
| st_moved P o i b sw mv q1 q2 g u v ms : mv u || mv v = true ->
    step (mkS P o i b sw mv (q1 ++ (g, (u, v)) :: q2) ms) (mkS P o i b sw mv (q1 ++ q2) ms)
| st_stale P o i b sw mv q1 q2 g u v ms g' ms' : mv u || mv v = false -> swap_gain P u v ms = (g', ms') -> g <> g' ->
    step (mkS P o i b sw mv (q1 ++ (g, (u, v)) :: q2) ms) (mkS P o i b sw mv ((g', (u, v)) :: q1 ++ q2) ms')
| st_swap P o i b sw mv q1 q2 g u v ms ms' : mv u || mv v = false -> swap_gain P u v ms = (g, ms') ->
    step (mkS P o i b sw mv (q1 ++ (g, (u, v)) :: q2) ms)
         (mkS (vertex_swap P u v) (o - g) (if o - g <=? b then S (length sw) else i) (if o - g <=? b then o - g else b)
              ((g, (u, v)) :: sw) (upd (upd mv u true) v true) (q1 ++ q2) ms').
Inductive steps : state -> state -> Prop :=
| ss_refl s : steps s s
| ss_step s t r : step s t -> steps t r -> steps s r.

(** 207-212 *)
Fixpoint rollback (n : nat) (sw : list elem) (P : partition) (o : Z) : partition * Z :=
  match n, sw with
  | S n', (g, (u, v)) :: sw' => rollback n' sw' (vertex_swap P u v) (o + g)
  | _, _ => (P, o)
  end.

(** A pass (142-212) from partition P with objective o; [i] is best_idx. *)
Inductive pass (P : partition) (o : Z) (ms : nat -> bool) : partition -> Z -> (nat -> bool) -> nat -> Prop :=
| pass_run q ms1 P' o' i b sw mv ms' P'' o'' : init_pq P ms = (q, ms1) ->
    steps (mkS P o 0 o [] (fun _ => false) q ms1) (mkS P' o' i b sw mv [] ms') ->
    rollback (length sw - i) sw P' o' = (P'', o'') -> pass P o ms P'' o'' ms' i.

(** 138-141, 216-224; the counter [f] of fruitless rounds, at most 2 (kerninghan_lin.h:44) *)
Definition fruitless (o o' : Z) (f : nat) : nat := if o' =? o then S f else 0%nat.
Inductive improve_from : partition -> Z -> (nat -> bool) -> nat -> partition -> Prop :=
| im_last P o ms f P' o' ms' i : pass P o ms P' o' ms' i -> ((0 <? i)%nat && (fruitless o o' f <=? 2)%nat) = false -> improve_from P o ms f P'
| im_next P o ms f P' o' ms' i R : pass P o ms P' o' ms' i -> ((0 <? i)%nat && (fruitless o o' f <=? 2)%nat) = true ->
    improve_from P' o' ms' (fruitless o o' f) R -> improve_from P o ms f R.
(** 131-137 *)
Definition improve (P R : partition) : Prop := improve_from P (mapping_cost H dist P) (fun _ => false) 0 R.
End Model.

Section Proofs.
Variables (H : hypergraph) (dist : (nat -> bool) -> Z).
Hypothesis WF : wf_hg H.
Hypothesis EXT : forall s t, (forall b, s b = t b) -> dist s = dist t.
Notation cost := (mapping_cost H dist).
Notation gain P u v := (fst (swap_gain H dist P u v (fun _ => false))).
Notation clean ms := (forall e : nat, ms e = false).

(** *** The gain *)
Lemma mark_spec l : forall ms e, mark ms l e = mem e l || ms e.
Proof.
  induction l as [|a l IH]; intros ms e; cbn [mark fold_left mem existsb]; [reflexivity|]. change (fold_left _ l ?x) with (mark x l). rewrite IH. fold (mem e l).
  unfold upd. destruct (e =? a)%nat eqn:E; cbn; [now rewrite orb_true_r|reflexivity].
Qed.
Lemma loop_v_spec P bu bv l : NoDup l -> forall g ms,
  fst (loop_v H dist P bu bv l (g, ms)) = g + sumZ (fun e => if ms e then 0 else edge_gain H dist P e bv bu) l /\
  (forall e, snd (loop_v H dist P bu bv l (g, ms)) e = ms e && negb (mem e l)).
Proof.
  induction 1 as [|a l Na ND IH]; intros g ms; cbn [loop_v fold_left sumZ mem existsb].
  - split; [cbn; lia|]. intros e. cbn. now rewrite andb_true_r.
  - change (fold_left _ l ?x) with (loop_v H dist P bu bv l x). destruct (ms a) eqn:E.
    + destruct (IH g (upd ms a false)) as (A & B). split.
      * rewrite A. f_equal. cbn. apply sumZ_ext. intros x Hx. unfold upd. destruct (x =? a)%nat eqn:X; auto. apply Nat.eqb_eq in X. subst. contradiction.
      * intros e. rewrite B. fold (mem e l). unfold upd. destruct (e =? a)%nat eqn:X; cbn; [|reflexivity]. now rewrite andb_false_r.
    + destruct (IH (g + edge_gain H dist P a bv bu) ms) as (A & B). split; [rewrite A; lia|].
      intros e. rewrite B. fold (mem e l). destruct (e =? a)%nat eqn:X; cbn; [|reflexivity]. apply Nat.eqb_eq in X. subst. now rewrite E.
Qed.
Lemma loop_u_spec P bu bv l : NoDup l -> forall g ms,
  fst (loop_u H dist P bu bv l (g, ms)) = g + sumZ (fun e => if ms e then edge_gain H dist P e bu bv else 0) l /\
  (forall e, snd (loop_u H dist P bu bv l (g, ms)) e = ms e && negb (mem e l)).
Proof.
  induction 1 as [|a l Na ND IH]; intros g ms; cbn [loop_u fold_left sumZ mem existsb].
  - split; [cbn; lia|]. intros e. cbn. now rewrite andb_true_r.
  - change (fold_left _ l ?x) with (loop_u H dist P bu bv l x). destruct (ms a) eqn:E.
    + destruct (IH (g + edge_gain H dist P a bu bv) (upd ms a false)) as (A & B). split.
      * rewrite A. rewrite <- Z.add_assoc. f_equal. f_equal. apply sumZ_ext. intros x Hx. unfold upd. destruct (x =? a)%nat eqn:X; auto. apply Nat.eqb_eq in X. subst. contradiction.
      * intros e. rewrite B. fold (mem e l). unfold upd. destruct (e =? a)%nat eqn:X; cbn; [|reflexivity]. now rewrite andb_false_r.
    + destruct (IH g ms) as (A & B). split; [rewrite A; lia|].
      intros e. rewrite B. fold (mem e l). destruct (e =? a)%nat eqn:X; cbn; [|reflexivity]. apply Nat.eqb_eq in X. subst. now rewrite E.
Qed.
Lemma inc_sum v f : In v (nodes H) -> sumZ f (inc H v) = sumZ (fun e => if mem v (pins H e) then f e else 0) (edges H).
Proof.
  intros Hv. rewrite <- sumZ_filter. apply sumZ_perm. apply NoDup_Permutation; [apply (wf_inc_nodup H WF); auto|apply NoDup_filter, (wf_edges H WF)|].
  intros e. rewrite filter_In, mem_In. apply (wf_inc H WF); auto.
Qed.
Lemma mem_inc v e : In v (nodes H) -> In e (edges H) -> mem e (inc H v) = mem v (pins H e).
Proof.
  intros Hv He. destruct (mem_spec e (inc H v)) as [I|I]; destruct (mem_spec v (pins H e)) as [J|J]; auto; exfalso.
  - apply J. now apply (wf_inc H WF) in I.
  - apply I. apply (wf_inc H WF); auto.
Qed.
(** The gain of a swap: only hyperedges with exactly one of the two nodes count. *)
Lemma swap_gain_spec P u v ms bu bv : In u (nodes H) -> In v (nodes H) -> P u = Some bu -> P v = Some bv -> clean ms ->
  fst (swap_gain H dist P u v ms) = sumZ (fun e => match mem u (pins H e), mem v (pins H e) with
      | true, false => edge_gain H dist P e bu bv | false, true => edge_gain H dist P e bv bu | _, _ => 0 end) (edges H) /\
  clean (snd (swap_gain H dist P u v ms)).
Proof.
  intros Hu Hv Eu Ev C. unfold swap_gain. rewrite Eu, Ev.
  pose proof (wf_inc_nodup H WF u Hu) as Nu. pose proof (wf_inc_nodup H WF v Hv) as Nv.
  destruct (loop_v_spec P bu bv (inc H v) Nv 0 (mark ms (inc H u))) as (A & B).
  destruct (loop_v H dist P bu bv (inc H v) (0, mark ms (inc H u))) as [g1 ms1]. cbn [fst snd] in A, B.
  destruct (loop_u_spec P bu bv (inc H u) Nu g1 ms1) as (A' & B'). split.
  - rewrite A', A, Z.add_0_l. rewrite (inc_sum v _ Hv), (inc_sum u _ Hu), <- sumZ_plus. apply sumZ_ext. intros e He.
    rewrite B, mark_spec, C, orb_false_r, (mem_inc u e Hu He), (mem_inc v e Hv He).
    destruct (mem u (pins H e)), (mem v (pins H e)); cbn; lia.
  - intros e. rewrite B', B, mark_spec, C, orb_false_r. destruct (mem e (inc H u)), (mem e (inc H v)); reflexivity.
Qed.

(** *** The effect of a swap *)
Lemma swap_at P u v x : u <> v -> vertex_swap P u v x = if (x =? u)%nat then P v else if (x =? v)%nat then P u else P x.
Proof.
  intros N. unfold vertex_swap, upd. destruct (x =? v)%nat eqn:E; destruct (x =? u)%nat eqn:E'; auto. apply Nat.eqb_eq in E, E'. congruence.
Qed.
Lemma cset_true P e b : cset H P e b = true <-> exists x, In x (pins H e) /\ P x = Some b.
Proof.
  unfold cset. rewrite existsb_exists. split; intros (x & Hx & E); exists x; split; auto; unfold in_block in *.
  - destruct (P x); [apply Nat.eqb_eq in E; now subst|discriminate].
  - rewrite E. apply Nat.eqb_refl.
Qed.
Lemma bool_iff (a b : bool) : (a = true <-> b = true) -> a = b.
Proof. destruct a, b; intuition congruence. Qed.

(** The cost changes by the gain. *)
Lemma swap_cost P u v ms : one_to_one H P -> In u (nodes H) -> In v (nodes H) -> u <> v -> clean ms ->
  cost (vertex_swap P u v) = cost P - fst (swap_gain H dist P u v ms) /\ clean (snd (swap_gain H dist P u v ms)).
Proof.
  intros (T & I) Hu Hv N C. destruct (P u) as [bu|] eqn:Eu; [|exfalso; exact (T u Hu Eu)]. destruct (P v) as [bv|] eqn:Ev; [|exfalso; exact (T v Hv Ev)].
  assert (Nb : bu <> bv) by (intros E; apply N, I; auto; congruence).
  destruct (swap_gain_spec P u v ms bu bv Hu Hv Eu Ev C) as (G & Cl). split; auto. rewrite G. unfold mapping_cost. rewrite <- sumZ_minus.
  apply sumZ_ext. intros e He. pose proof (wf_pins_nodes H WF e) as PN.
  assert (U : forall x, In x (pins H e) -> P x = Some bu -> x = u) by (intros x Hx E; apply I; auto; congruence).
  assert (V : forall x, In x (pins H e) -> P x = Some bv -> x = v) by (intros x Hx E; apply I; auto; congruence).
  assert (SW : forall x, vertex_swap P u v x = if (x =? u)%nat then P v else if (x =? v)%nat then P u else P x) by (intros; now apply swap_at).
  destruct (mem_spec u (pins H e)) as [Mu|Mu], (mem_spec v (pins H e)) as [Mv|Mv].
  - rewrite (EXT (cset H (vertex_swap P u v) e) (cset H P e)); [lia|]. intros b. apply bool_iff. rewrite !cset_true. split.
    + intros (x & Hx & E). rewrite SW in E. destruct (x =? u)%nat eqn:X; [exists v; auto|]. destruct (x =? v)%nat eqn:X'; [exists u; auto|exists x; auto].
    + intros (x & Hx & E). destruct (Nat.eq_dec x u) as [->|Xu]; [exists v|destruct (Nat.eq_dec x v) as [->|Xv]; [exists u|exists x]]; (split; [auto|]); rewrite SW.
      * rewrite (proj2 (Nat.eqb_neq v u)), Nat.eqb_refl by auto. exact E.
      * rewrite Nat.eqb_refl. exact E.
      * rewrite (proj2 (Nat.eqb_neq x u)), (proj2 (Nat.eqb_neq x v)) by auto. exact E.
  - unfold edge_gain. rewrite (EXT (cset H (vertex_swap P u v) e) (exchange (cset H P e) bu bv)); [lia|]. intros b. apply bool_iff.
    unfold exchange, upd. destruct (Nat.eqb_spec b bv) as [->|B1]; [|destruct (Nat.eqb_spec b bu) as [->|B2]].
    + rewrite cset_true. split; auto. intros _. exists u. split; auto. rewrite SW, Nat.eqb_refl. exact Ev.
    + rewrite cset_true. split; [|discriminate]. intros (x & Hx & E). rewrite SW in E. destruct (Nat.eqb_spec x u) as [->|X]; [congruence|].
      destruct (Nat.eqb_spec x v) as [->|X']; [contradiction|]. exfalso. apply X, U; auto.
    + rewrite !cset_true. split; intros (x & Hx & E); exists x; (split; [auto|]).
      * rewrite SW in E. destruct (Nat.eqb_spec x u) as [->|X]; [congruence|]. destruct (Nat.eqb_spec x v) as [->|X']; [contradiction|exact E].
      * rewrite SW. destruct (Nat.eqb_spec x u) as [->|X]; [congruence|]. destruct (Nat.eqb_spec x v) as [->|X']; [contradiction|exact E].
  - unfold edge_gain. rewrite (EXT (cset H (vertex_swap P u v) e) (exchange (cset H P e) bv bu)); [lia|]. intros b. apply bool_iff.
    unfold exchange, upd. destruct (Nat.eqb_spec b bu) as [->|B1]; [|destruct (Nat.eqb_spec b bv) as [->|B2]].
    + rewrite cset_true. split; auto. intros _. exists v. split; auto. rewrite SW, Nat.eqb_refl, (proj2 (Nat.eqb_neq v u)) by auto. exact Eu.
    + rewrite cset_true. split; [|discriminate]. intros (x & Hx & E). rewrite SW in E. destruct (Nat.eqb_spec x u) as [->|X]; [contradiction|].
      destruct (Nat.eqb_spec x v) as [->|X']; [congruence|]. exfalso. apply X', V; auto.
    + rewrite !cset_true. split; intros (x & Hx & E); exists x; (split; [auto|]).
      * rewrite SW in E. destruct (Nat.eqb_spec x u) as [->|X]; [contradiction|]. destruct (Nat.eqb_spec x v) as [->|X']; [congruence|exact E].
      * rewrite SW. destruct (Nat.eqb_spec x u) as [->|X]; [contradiction|]. destruct (Nat.eqb_spec x v) as [->|X']; [congruence|exact E].
  - rewrite (EXT (cset H (vertex_swap P u v) e) (cset H P e)); [lia|]. intros b. apply bool_iff. rewrite !cset_true.
    split; intros (x & Hx & E); exists x; (split; [auto|]).
    + rewrite SW in E. destruct (Nat.eqb_spec x u) as [->|X]; [contradiction|]. destruct (Nat.eqb_spec x v) as [->|X']; [contradiction|exact E].
    + rewrite SW. destruct (Nat.eqb_spec x u) as [->|X]; [contradiction|]. destruct (Nat.eqb_spec x v) as [->|X']; [contradiction|exact E].
Qed.
End Proofs.
