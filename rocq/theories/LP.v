(** LP.v - the (non-deterministic) label propagation refiner,
    mt-kahypar/partition/refinement/label_propagation/label_propagation_refiner.{h,cpp}.
    The loop over the active nodes (moveActiveNodes) and the rollback loop are parameters here: LPSeq.v gives the sequential versions
    (execute_sequential = true), LPPar.v the parallel ones.  The rebalancer is a parameter, later the one of C61.
    Simplifications: gain cache updates are not part of this model (C10, C61); the relative improvement threshold (a double
    comparison) is an arbitrary function [small]; the imbalance is an arbitrary function of the block weights. *)
From Verif Require Import Base Spec PHG GainCache Metrics Conc DetLP Jet.

(** next_active_nodes, _next_active, _visited_he, _old_part, _old_part_is_initialized. *)
Record nact := mkN { nx : list nat; inx : nat -> bool; vhe : nat -> bool; old : nat -> option nat; oin : nat -> bool }.
Definition opt_eqb (a b : option nat) : bool := match a, b with Some x, Some y => Nat.eqb x y | None, None => true | _, _ => false end.

Section LP.
Variables (H : hypergraph) (k : nat) (L : nat -> Z) (o : objective).
(** mu: _might_be_uninitialized; thr: hyperedge_size_activation_threshold; un: unconstrained; rebal: label_propagation.rebalancing *)
Variables (mu un rebal : bool) (thr : Z).
Variables (D : Type) (imb : list Z -> D) (dlt : D -> D -> bool) (small : Z -> Z -> bool).
Variables (large_k : bool) (removed : Z).

(** lambda activate, label_propagation_refiner.h:140-151 *)
Definition unin (x : nact) (v : nat) : bool := mu && negb (oin x v).
Definition activate1 (am : bool) (P : partition) (x : nact) (v : nat) : nact :=
  if am || unin x v || opt_eqb (P v) (old x v) then
    if inx x v then x
    else mkN (nx x ++ [v]) (upd (inx x) v true) (vhe x) (if unin x v then upd (old x) v (P v) else old x) (if unin x v then upd (oin x) v true else oin x)
  else x.
(** activateNodeAndNeighbors, .h:135-178 (hypergraph version) *)
Definition activate_edge (am : bool) (P : partition) (x : nact) (e : nat) : nact :=
  if (size_of H e <=? thr) && negb (vhe x e)
  then let y := fold_left (activate1 am P) (pins H e) x in mkN (nx y) (inx y) (upd (vhe y) e true) (old y) (oin y)
  else x.
Definition activateNN (am : bool) (P : partition) (x : nact) (hn : nat) : nact :=
  let y := fold_left (activate_edge am P) (inc H hn) x in
  if am && negb (inx y hn) then mkN (nx y ++ [hn]) (upd (inx y) hn true) (vhe y) (old y) (oin y) else y.
(** _visited_he.reset(); _next_active.reset(); an empty next_active_nodes (cpp:155-157) *)
Definition fresh (od : nat -> option nat) (oi : nat -> bool) : nact := mkN [] (fun _ => false) (fun _ => false) od oi.

(** moveActiveNodes, cpp:224-262: [phase u act s x s' d mvd x'] - the loop over the active nodes [act] ([u]: unconstrained) leads from
    partition s to s', the attributed gains sum to d, mvd are the nodes whose flag _active_node_was_moved is set, in index order. *)
Variable phase : bool -> list nat -> phg -> nact -> phg -> Z -> list nat -> nact -> Prop.
(** refineAndOutputMovesLinear: partition, quality before; partition, quality after; the moves *)
Variable rb : phg -> Z -> phg -> Z -> list mv -> Prop.
(** the rollback loop, cpp:303-310 *)
Variable rollb : list nat -> (nat -> option nat) -> phg -> phg -> Prop.

(** cpp:274-287: nodes appended to the active nodes *)
Definition app_step (a : list nat * (nat -> option nat) * (nat -> bool)) (m : mv) : list nat * (nat -> option nat) * (nat -> bool) :=
  let '(l, od, oi) := a in
  let un0 := mu && negb (oi (m_u m)) in
  if un0 || opt_eqb (Some (m_from m)) (od (m_u m))
  then (l ++ [m_u m], if un0 then upd od (m_u m) (Some (m_from m)) else od, if un0 then upd oi (m_u m) true else oi)
  else (l, od, oi).
Definition append_moves (ms : list mv) (od : nat -> option nat) (oi : nat -> bool) := fold_left app_step ms ([], od, oi).

Record rs := mkR { r_s : phg; r_q : Z; r_i : D; r_act : list nat; r_old : nat -> option nat; r_oin : nat -> bool }.
Definition iof (s : phg) : D := imb (wts k s).
Local Notation isbal := (isbal k L large_k removed).

(** labelPropagationRound, cpp:149-222, without the comparison with the threshold; the last argument is should_stop.
    The next active nodes are copied from thread-local buffers in any order (cpp:139-143). *)
Definition keep_new (oldbal : bool) (i0 : D) (q0 : Z) (s2 : phg) (q2 : Z) : bool := (negb oldbal && dlt (iof s2) i0) || ((q2 <=? q0) && isbal s2).
Inductive lround (x : rs) : rs -> bool -> Prop :=
| R_con s1 d1 mvd y a : un = false -> phase false (r_act x) (r_s x) (fresh (r_old x) (r_oin x)) s1 d1 mvd y ->
    Permutation a (nx y) -> lround x (mkR s1 (r_q x + d1) (iof s1) a (old y) (oin y)) false
| R_bal s1 d1 mvd y z a : un = true -> phase true (r_act x) (r_s x) (fresh (r_old x) (r_oin x)) s1 d1 mvd y -> isbal s1 = true ->
    (* store the parts (cpp:190-194), then activate (cpp:196-204) *)
    z = fold_left (activateNN false (part s1)) mvd (mkN (nx y) (inx y) (vhe y) (fold_left (fun od v => upd od v (part s1 v)) mvd (old y)) (oin y)) ->
    Permutation a (nx z) -> lround x (mkR s1 (r_q x + d1) (iof s1) a (old z) (oin z)) false
| R_keep s1 d1 mvd y s2 q2 ms ap od oi z a : un = true -> phase true (r_act x) (r_s x) (fresh (r_old x) (r_oin x)) s1 d1 mvd y -> isbal s1 = false ->
    rb s1 (r_q x + d1) s2 q2 ms -> append_moves ms (old y) (oin y) = (ap, od, oi) ->
    keep_new (isbal (r_s x)) (r_i x) (r_q x) s2 q2 = true ->
    z = fold_left (activateNN false (part s2)) (mvd ++ ap) (mkN (nx y) (inx y) (vhe y) (fold_left (fun od v => upd od v (part s2 v)) (mvd ++ ap) od) oi) ->
    Permutation a (nx z) -> lround x (mkR s2 q2 (iof s2) a (old z) (oin z)) false
| R_roll s1 d1 mvd y s2 q2 ms ap od oi s3 : un = true -> phase true (r_act x) (r_s x) (fresh (r_old x) (r_oin x)) s1 d1 mvd y -> isbal s1 = false ->
    rb s1 (r_q x + d1) s2 q2 ms -> append_moves ms (old y) (oin y) = (ap, od, oi) ->
    keep_new (isbal (r_s x)) (r_i x) (r_q x) s2 q2 = false ->
    rollb (mvd ++ ap) od s2 s3 ->
    lround x (mkR s3 (r_q x) (r_i x) (nx y) od oi) true.

(** labelPropagation, cpp:127-147 *)
Inductive lrun : nat -> rs -> rs -> Prop :=
| L_stop n x : n = O \/ r_act x = [] -> lrun n x x
| L_last n x x' b : r_act x <> [] -> lround x x' b -> b || small (r_q x) (r_q x') = true -> lrun (S n) x x'
| L_next n x x' x'' : r_act x <> [] -> lround x x' false -> small (r_q x) (r_q x') = false -> lrun n x' x'' -> lrun (S n) x x''.

(** initializeActiveNodes, cpp:338-390: the nodes [refine] given by the caller, or all (border) nodes in any order. *)
Definition init_act (refine : list nat) (s : phg) (act : list nat) (od : nat -> option nat) : Prop :=
  match refine with
  | [] => Permutation act (filter (fun v => rebal || isBorderNode H s v) (nodes H)) /\ (un = true -> forall v, In v (nodes H) -> od v = part s v)
  | _ => act = refine /\ (un = true -> forall v, In v refine -> od v = part s v)
  end.
(** refineImpl, cpp:96-125; [maxit]: maximum_iterations. *)
Definition refine_lp (maxit : nat) (refine : list nat) (s : phg) (q : Z) (i : D) (s' : phg) (q' : Z) (i' : D) (ret : bool) : Prop :=
  exists act od x', mu = un && negb (isnil refine) /\ init_act refine s act od /\
    lrun maxit (mkR s q i act od (fun v => mem v refine)) x' /\ s' = r_s x' /\ q' = r_q x' /\ i' = r_i x' /\ ret = (q' <? q).
End LP.
